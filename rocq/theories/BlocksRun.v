(** The ledger while commands are executed (C80): handlers, calls and answers. *)
From Coq Require Import Ascii String NArith ZArith Bool PeanoNat Lia List Permutation.
Import ListNotations.
From Verif Require Import Util Base Lexer StringConv Serializer UMap Exec ExecThrow.
From Verif Require Import ExecProofs ExecThrowProofs ExecThrowMore.
From Verif Require Import Blocks BlocksSpec BlocksProofs BlocksLexer BlocksExec.

Local Notation length := List.length.

Section Run.
Variable fails : nat -> bool.
Variable what : bytes.
Local Notation sim := (sim fails what).

(** Between two moments the blocks change by [pre] and [post], and luck [l] is bad only if a
    request has failed. *)
Definition books (h h' : heap) (pre post : list nat) (l : luck) : Prop :=
  ledger h' /\ bal h h' pre post /\ (In true l -> some_failed fails h h') /\
  h_asked h <= h_asked h'.

Lemma some_left : forall h h1 h2, some_failed fails h h1 -> h_asked h1 <= h_asked h2 ->
  some_failed fails h h2.
Proof. intros h h1 h2 (n & Hn & Hf) Hle. exists n. split; [lia|assumption]. Qed.
Lemma some_right : forall h h1 h2, some_failed fails h1 h2 -> h_asked h <= h_asked h1 ->
  some_failed fails h h2.
Proof. intros h h1 h2 (n & Hn & Hf) Hle. exists n. split; [lia|assumption]. Qed.

Lemma books_trans : forall h h1 h2 pre mid mid' post l1 l2, eqv mid mid' ->
  books h h1 pre mid l1 -> books h1 h2 mid' post l2 -> books h h2 pre post (l1 ++ l2).
Proof.
  intros h h1 h2 pre mid mid' post l1 l2 He (K1 & B1 & S1 & L1) (K2 & B2 & S2 & L2).
  split; [assumption|]. split; [counts|]. split; [|lia].
  intros Hin. apply in_app_iff in Hin. destruct Hin as [Hin|Hin].
  - eapply some_left; [apply S1, Hin|assumption].
  - eapply some_right; [apply S2, Hin|assumption].
Qed.

Lemma books_none : forall h l, ledger h -> books h h l l [].
Proof. intros h l Hh. split; [assumption|]. split; [counts|]. split; [intros []|lia]. Qed.

Lemma books_false : forall h h' pre post l, books h h' pre post l ->
  books h h' pre post (false :: l).
Proof.
  intros h h' pre post l (K & B & S & L). split; [assumption|]. split; [assumption|].
  split; [|assumption]. intros [Hf|Hin]; [discriminate|auto].
Qed.

Lemma books_eqv : forall h h' pre post pre' post' l, books h h' pre post l ->
  (forall a, occ pre a + occ post' a = occ pre' a + occ post a) -> books h h' pre' post' l.
Proof.
  intros h h' pre post pre' post' l (K & B & S & L) He. split; [assumption|]. split; [|auto].
  intros a. specialize (B a). specialize (He a). lia.
Qed.

Lemma books_has : forall h h' pre post l F, books h h' pre post l -> has h (pre ++ F) ->
  has h' (post ++ F).
Proof. intros h h' pre post l F (K & B & S & L) Hhas. counts. Qed.

Lemma books_dtor : forall h h' pre post l d r, books h h' pre post l -> dok d r ->
  has h' r -> exists h2, d h' = Done h2 /\ books h h2 (pre ++ r) post l.
Proof.
  intros h h' pre post l d r (K & B & S & L) Hd Hhas.
  destruct (Hd h' K Hhas) as (h2 & E & K2 & B2 & A2). exists h2. split; [assumption|].
  split; [assumption|]. split; [counts|]. split; [|lia].
  intros Hin. eapply some_left; [apply S, Hin|lia].
Qed.

(** Bad luck only if requests can fail. *)
Definition excused (l : luck) : Prop := In true l -> exists n, fails n = true.
Lemma excused_nil : excused [].
Proof. intros []. Qed.
Lemma excused_false : forall l, excused l -> excused (false :: l).
Proof. intros l H [E|Hin]; [discriminate|auto]. Qed.
Lemma excused_app : forall l r, excused l -> excused r -> excused (l ++ r).
Proof. intros l r H K Hin. apply in_app_iff in Hin. destruct Hin; auto. Qed.
Lemma excused_books : forall h h' pre post l, books h h' pre post l -> excused l.
Proof. intros h h' pre post l (_ & _ & S & _) Hin. destruct (S Hin) as (n & _ & E). eauto. Qed.
Lemma excused_good : forall n, excused (repeat false n).
Proof. intros n H. apply repeat_spec in H. discriminate. Qed.

Ltac excuse := repeat first [assumption|apply excused_nil|apply excused_false|apply excused_app
  |apply excused_good|eapply excused_books; eassumption].

Lemma sim_books : forall A B pre (own : A -> list nat) kept m (y : B) R, 
  sim pre own kept m (Done y) R -> forall h, ledger h -> has h pre ->
  match m h with
  | Done (h', inl x) => R x y /\ books h h' pre (own x) [false]
  | Done (h', inr e) => e = bad what /\ books h h' pre kept [true]
  | Fault _ => False
  end.
Proof.
  intros A B pre own kept m y R H h Hh Hhas. specialize (H h Hh Hhas).
  destruct (m h) as [[h1 [x|e]]|f]; [| |discriminate].
  - destruct H as ((z & E & Hr) & K & Bl & N & L). injection E as <-. split; [assumption|].
    split; [assumption|]. split; [assumption|]. split; [|assumption]. intros [E|[]]. discriminate.
  - destruct H as (-> & K & Bl & S & L). split; [reflexivity|].
    split; [assumption|]. split; [assumption|]. split; [auto|assumption].
Qed.

Section Code.
Context {W F : Type}.
Variable code : F -> functor W F.
Variables sg catching : bool.
Variable lexes : lexer -> bytes -> M (binput bytes + str).
Variable lexer_ok : lexer -> Prop.
Hypothesis HL : forall lex, lexer_ok lex -> keeps_books fails what lex (lexes lex).
Hypothesis HF : forall f vs, installs lexer_ok (f_body (code f) vs).

Local Notation state := (state W F).
Local Notation b_nested := (@b_nested W F).
Local Notation x_nested := (@x_nested W F).

Definition good (s : state) : Prop := lexed lexer_ok s.

Lemma good_same : forall s s', good s -> s_lexer s' = s_lexer s -> good s'.
Proof. intros s s' H E lex El. apply H. now rewrite <- E. Qed.

(** What leaves execute, and the blocks it comes with. *)
Definition own_answer (r : bresult + exn) : list nat :=
  match r with inl r => own_result r | inr _ => [] end.
Definition see_answer (r : bresult + exn) : result + exn :=
  match r with inl r => inl (see_result r) | inr x => inr x end.

Definition nest_ok (nb : b_nested) (nx : x_nested) : Prop := forall s cmd h, good s -> ledger h ->
  match nb s cmd h with
  | Done (h', (s', r)) =>
      good s' /\ exists l, books h h' [] (own_answer r) l /\
        forall rest, nx (l ++ rest) s cmd = Done (rest, s', see_answer r)
  | Fault f => exists l, excused l /\ forall rest, nx (l ++ rest) s cmd = Fault f
  end.

Lemma add_lexer : forall (s : state) n fs s', add sg s n fs = Done s' -> s_lexer s' = s_lexer s.
Proof.
  intros s n fs s' H. unfold add in H.
  destruct (insertOrAssign _ _ _ _ _) as [m|]; cbn [bind] in H; [|discriminate].
  injection H as <-. reflexivity.
Qed.

Lemma remove_lexer : forall (s : state) n s', Exec.remove sg s n = Done s' -> s_lexer s' = s_lexer s.
Proof.
  intros s n s' H. unfold Exec.remove in H.
  destruct (erase _ _ _ _) as [m|]; cbn [bind] in H; [|discriminate].
  injection H as <-. reflexivity.
Qed.

Lemma x_add_good : forall rest (s : state) n fs,
  x_add sg what (false :: false :: rest) s n fs =
  match add sg s n fs with Done s' => Done (rest, s', inl tt) | Fault f => Fault f end.
Proof.
  intros rest s n fs. unfold x_add. cbn [ask].
  destruct (x_room sg s n) as [s1|f] eqn:Er; cbn [bind ask].
  - destruct (add sg s n fs); reflexivity.
  - now rewrite (room_fault _ _ _ _ _ Er).
Qed.

Local Notation fits p nb nx sid s c h :=
  (match b_run fails what sg nb sid s c p h with
   | Done (h', (s', c', r)) =>
       good s' /\ exists l, books h h' (own_ctx c) (own_ctx c') l /\
         forall rest, x_run sg what nx sid (l ++ rest) s (see_ctx c) p = Done (rest, s', see_ctx c', r)
   | Fault f => exists l, excused l /\ forall rest, x_run sg what nx sid (l ++ rest) s (see_ctx c) p = Fault f
   end).

Lemma run_fits : forall nb nx, nest_ok nb nx -> forall R sid (p : prog W F R), installs lexer_ok p ->
  forall s c h, good s -> ledger h -> has h (own_ctx c) -> fits p nb nx sid s c h.
Proof.
  intros nb nx N R sid p.
  (* an operation that only changes the context *)
  assert (Hop : forall (m : M bctx) (k : prog W F R) c0' s c h (op : prog W F R),
    (forall c s h, good s -> ledger h -> has h (own_ctx c) -> fits k nb nx sid s c h) ->
    sim (own_ctx c) own_ctx (own_ctx c) m (Done tt) (fun c' _ => see_ctx c' = c0') ->
    good s -> ledger h -> has h (own_ctx c) ->
    (forall rest, x_run sg what nx sid (true :: rest) s (see_ctx c) op =
                  Done (rest, s, see_ctx c, inr (bad what))) ->
    (forall rest, x_run sg what nx sid (false :: rest) s (see_ctx c) op =
                  x_run sg what nx sid rest s c0' k) ->
    match
      (a <- m h ;;
       match a with
       | (h, inr x) => Done (h, (s, c, inr x))
       | (h, inl c) => b_run fails what sg nb sid s c k h
       end)
    with
    | Done (h', (s', c', r)) =>
        good s' /\ exists l, books h h' (own_ctx c) (own_ctx c') l /\
          forall rest, x_run sg what nx sid (l ++ rest) s (see_ctx c) op = Done (rest, s', see_ctx c', r)
    | Fault f => exists l, excused l /\ forall rest, x_run sg what nx sid (l ++ rest) s (see_ctx c) op = Fault f
    end).
  { intros m k c0' s c h op IH Hm G Hh Hhas Ht Hf.
    pose proof (sim_books _ _ _ _ _ _ _ _ Hm h Hh Hhas) as B.
    destruct (m h) as [[h1 [c1|e]]|f]; cbn [bind]; [| |contradiction].
    - destruct B as [Hc B].
      assert (Hhas1 : has h1 (own_ctx c1)) by (destruct B as (_ & B & _); counts).
      specialize (IH c1 s h1 G (proj1 B) Hhas1). rewrite Hc in IH.
      destruct (b_run fails what sg nb sid s c1 k h1) as [[h2 [[s2 c2] r]]|f].
      + destruct IH as (G2 & l & B2 & X). split; [assumption|]. exists (false :: l). split.
        * apply (books_trans _ _ _ _ _ _ _ [false] l (fun _ => eq_refl) B B2).
        * intros rest. cbn [app]. rewrite Hf. apply X.
      + destruct IH as (l & Qf & X). exists (false :: l). split; [excuse|]. intros rest. cbn [app]. rewrite Hf. apply X.
    - destruct B as [-> B]. split; [assumption|]. exists [true]. split; [assumption|].
      intros rest. cbn [app]. apply Ht. }
  (* an operation that does not touch the context *)
  assert (Hpass : forall (k : prog W F R) s s0 c h (op : prog W F R),
    fits k nb nx sid s c h ->
    (forall rest, x_run sg what nx sid (false :: rest) s0 (see_ctx c) op =
                  x_run sg what nx sid rest s (see_ctx c) k) ->
    match b_run fails what sg nb sid s c k h with
    | Done (h', (s', c', r)) =>
        good s' /\ exists l, books h h' (own_ctx c) (own_ctx c') l /\
          forall rest, x_run sg what nx sid (l ++ rest) s0 (see_ctx c) op = Done (rest, s', see_ctx c', r)
    | Fault f => exists l, excused l /\ forall rest, x_run sg what nx sid (l ++ rest) s0 (see_ctx c) op = Fault f
    end).
  { intros k s s0 c h op H Hf.
    destruct (b_run fails what sg nb sid s c k h) as [[h2 [[s2 c2] r]]|f].
    - destruct H as (G2 & l & B2 & X). split; [assumption|]. exists (false :: l). split.
      + now apply books_false.
      + intros rest. cbn [app]. rewrite Hf. apply X.
    - destruct H as (l & Qf & X). exists (false :: l). split; [excuse|]. intros rest. cbn [app]. rewrite Hf. apply X. }
  cases p IH; intros I s c h G Hh Hhas; cbn [b_run]; cbn [installs] in I.
  - split; [assumption|]. exists [false]. split; [apply books_false, books_none, Hh|]. reflexivity.
  - split; [assumption|]. exists [false]. split; [apply books_false, books_none, Hh|]. reflexivity.
  - eapply Hop; [intros; now apply IH|apply log_sim|assumption..|reflexivity|reflexivity].
  - eapply Hop; [intros; now apply IH|apply logline_sim|assumption..|reflexivity|reflexivity].
  - eapply Hop; [intros; now apply IH|apply report_sim0, str_make_sim|assumption..|reflexivity|reflexivity].
  - apply Hpass; [now apply IH|]. reflexivity.
  - apply Hpass; [now apply IH|]. reflexivity.
  - eapply Hop; [intros; now apply IH|apply put_sim|assumption..|reflexivity|reflexivity].
  - apply Hpass; [now apply IH|]. reflexivity.
  - apply Hpass; [apply IH; [assumption|now apply (good_same s)|assumption|assumption]|]. reflexivity.
  - destruct (is_live s sid) eqn:El.
    + apply Hpass; [now apply IH|]. intros rest. cbn [x_run ask]. now rewrite El.
    + exists [false]. split; [excuse|]. intros rest. cbn [app x_run ask]. now rewrite El.
  - destruct (add sg s nme fs) as [s1|f] eqn:Ea; cbn [bind].
    + assert (G1 : good s1) by (apply (good_same s); [assumption|now apply (add_lexer _ _ _ _ Ea)]).
      specialize (IH I s1 c h G1 Hh Hhas).
      assert (X0 : forall rest, x_run sg what nx sid (false :: false :: false :: rest) s (see_ctx c)
                 (DoAdd nme fs p) = x_run sg what nx sid rest s1 (see_ctx c) p).
      { intros rest. cbn [x_run ask]. rewrite x_add_good, Ea. reflexivity. }
      destruct (b_run fails what sg nb sid s1 c p h) as [[h2 [[s2 c2] r]]|f].
      * destruct IH as (G2 & l & B2 & X). split; [assumption|].
        exists (false :: false :: false :: l). split; [now repeat apply books_false|].
        intros rest. cbn [app]. rewrite X0. apply X.
      * destruct IH as (l & Qf & X). exists (false :: false :: false :: l). split; [excuse|].
        intros rest. cbn [app]. rewrite X0. apply X.
    + exists [false; false; false]. split; [excuse|]. intros rest. cbn [app x_run ask]. rewrite x_add_good, Ea. reflexivity.
  - destruct (Exec.remove sg s nme) as [s1|f] eqn:Ea; cbn [bind].
    + apply Hpass.
      * apply IH; [assumption| |assumption|assumption].
        apply (good_same s); [assumption|now apply (remove_lexer _ _ _ Ea)].
      * intros rest. cbn [x_run ask]. now rewrite Ea.
    + exists [false]. split; [excuse|]. intros rest. cbn [app x_run ask]. now rewrite Ea.
  - apply Hpass; [apply IH; [assumption|now apply (good_same s)|assumption|assumption]|]. reflexivity.
  - destruct I as [I1 I2]. apply Hpass; [|reflexivity]. apply IH; [assumption| |assumption|assumption].
    intros lex E. now apply I1.
  - specialize (N s cmd h G Hh). destruct (nb s cmd h) as [[h1 [s1 [r1|x]]]|f]; cbn [bind].
    + destruct N as (G1 & l1 & B1 & X1). cbn [own_answer see_answer] in *.
      assert (Hr : has h1 (own_result r1 ++ own_ctx c)).
      { apply (books_has _ _ _ _ _ _ B1). exact Hhas. }
      destruct (books_dtor _ _ _ _ _ _ _ B1 (dok_result r1)) as (h2 & E2 & B2); [counts|].
      rewrite E2. cbn [bind].
      assert (Hc : has h2 (own_ctx c)).
      { destruct B2 as (_ & B2 & _). intros a. specialize (B2 a). specialize (Hhas a).
        rewrite occ_app in B2. cbn [occ] in B2. lia. }
      specialize (IH (inl (see_result r1)) (I _) s1 c h2 G1 (proj1 B2) Hc).
      destruct (b_run fails what sg nb sid s1 c (p (inl (see_result r1))) h2) as [[h3 [[s3 c3] r]]|f].
      * destruct IH as (G3 & l3 & B3 & X3). split; [assumption|]. exists (false :: l1 ++ l3). split.
        { apply books_false.
          apply (books_trans h h2 h3 (own_ctx c) (own_ctx c) (own_ctx c) _ l1 l3 (fun _ => eq_refl));
            [|assumption].
          apply (books_eqv _ _ _ _ _ _ _ B2). intros a. rewrite occ_app. cbn [occ]. lia. }
        intros rest. cbn [app x_run ask]. rewrite <- app_assoc, X1. cbn [bind]. apply X3.
      * destruct IH as (l3 & Qf & X3). exists (false :: l1 ++ l3). split; [excuse|]. intros rest. cbn [app x_run ask].
        rewrite <- app_assoc, X1. cbn [bind]. apply X3.
    + destruct N as (G1 & l1 & B1 & X1). cbn [own_answer see_answer] in *.
      assert (Hc : has h1 (own_ctx c)) by (apply (books_has _ _ _ _ _ _ B1); exact Hhas).
      specialize (IH (inr x) (I _) s1 c h1 G1 (proj1 B1) Hc).
      destruct (b_run fails what sg nb sid s1 c (p (inr x)) h1) as [[h3 [[s3 c3] r]]|f].
      * destruct IH as (G3 & l3 & B3 & X3). split; [assumption|]. exists (false :: l1 ++ l3). split.
        { apply books_false.
          apply (books_trans h h1 h3 (own_ctx c) (own_ctx c) (own_ctx c) _ l1 l3 (fun _ => eq_refl));
            [|assumption].
          apply (books_eqv _ _ _ _ _ _ _ B1). intros a. cbn [occ]. lia. }
        intros rest. cbn [app x_run ask]. rewrite <- app_assoc, X1. cbn [bind]. apply X3.
      * destruct IH as (l3 & Qf & X3). exists (false :: l1 ++ l3). split; [excuse|]. intros rest. cbn [app x_run ask].
        rewrite <- app_assoc, X1. cbn [bind]. apply X3.
    + destruct N as (l1 & Qf & X1). exists (false :: l1). split; [excuse|]. intros rest. cbn [app x_run ask].
      rewrite X1. reflexivity.
Qed.

(** ** Conversion of the arguments *)

Definition own_expected {A} (e : A + str) : list nat :=
  match e with inl _ => [] | inr s => own_str s end.
Fixpoint own_expecteds (ps : list serializer) : bexpecteds ps -> list nat :=
  match ps with
  | [] => fun _ => []
  | T :: r => fun es => own_expected (fst es) ++ own_expecteds r (snd es)
  end.
Definition expected_rel {A} (e : A + str) (x : expected A) : Prop :=
  match e, x with
  | inl v, Value w => v = w
  | inr s, Error t => holds s t
  | _, _ => False
  end.
Fixpoint expecteds_rel (ps : list serializer) : bexpecteds ps -> expecteds ps -> Prop :=
  match ps with
  | [] => fun _ _ => True
  | T :: r => fun es xs => expected_rel (fst es) (fst xs) /\ expecteds_rel r (snd es) (snd xs)
  end.

Lemma dok_expected : forall A (e : A + str), dok (bexpected_destroy e) (own_expected e).
Proof. intros A [v|s]; [apply dok_trivial|apply dok_str]. Qed.

Lemma dok_expecteds : forall ps es, dok (bexpecteds_destroy ps es) (own_expecteds ps es).
Proof.
  induction ps as [|T r IH]; intros es; [apply dok_trivial|].
  cbn [bexpecteds_destroy own_expecteds].
  eapply dok_eqv; [apply dok_both; [apply IH|apply dok_expected]|].
  intros a. rewrite !occ_app. lia.
Qed.

Lemma vec_at_some : forall A (own : A -> list nat) v i x C D pre F0 (own2 : C -> list nat) kept k
    (o : outcome D) R,
  eqv pre (own_vec own v ++ F0) -> nth_error (items v) i = Some x ->
  sim pre own2 kept (k x) o R -> sim pre own2 kept (follow (vec_at v i) k) o R.
Proof.
  intros A own v i x C D pre F0 own2 kept k o R He Hn Hk.
  pose proof (vec_at_sim fails what _ own v i C D pre F0 own2 kept k (fun _ => o) R He) as H.
  rewrite Hn in H. cbn [bind] in H. apply H. intros y E. injection E as <-. exact Hk.
Qed.

Lemma convert_sim : forall ps i (args : vec (vec bytes)), i + length ps <= length (items args) ->
  sim (own_vec own_value args) (fun es => own_expecteds ps es ++ own_vec own_value args)
      (own_vec own_value args) (b_convert fails what ps i args)
      (convert ps i (map see_value (items args))) (expecteds_rel ps).
Proof.
  induction ps as [|T r IH]; intros i args Hl; cbn [b_convert convert].
  { apply sim_ret; [exact I|]. cbn [own_expecteds app]. intros a. reflexivity. }
  cbn [length] in Hl. unfold at_.
  destruct (nth_error (items args) i) as [v|] eqn:En.
  2:{ apply nth_error_None in En. lia. }
  rewrite nth_error_map, En. cbn [option_map bind].
  apply (vec_at_some _ own_value args i v) with (F0 := []); [intros a; now rewrite app_nil_r|exact En|].
  eapply (sim_step _ _ _ _ _ _ (own_vec own_value args) _ [] own_expected [])
    with (R1 := fun e (_ : unit) => expected_rel e (from_value T (see_value v))) (y := tt);
    [|intros a; reflexivity|intros a; reflexivity|].
  { destruct (from_value T (see_value v)) as [x|t].
    - apply sim_ret; [reflexivity|intros a; reflexivity].
    - eapply (sim_step _ _ _ _ _ _ []); [apply b_sprintf_sim|intros a; reflexivity|intros a; reflexivity|].
      intros s Hs. apply sim_ret; [exact Hs|]. cbn [own_expected]. intros a. now rewrite app_nil_r. }
  intros e He.
  eapply (sim_follow _ _ _ _ _ _ [] _ (own_expected e ++ own_vec own_value args)
            (fun es => own_expecteds r es ++ own_expected e ++ own_vec own_value args)
            (own_vec own_value args));
    [|intros a; now rewrite app_nil_r|intros a; now rewrite app_nil_r|].
  { eapply (sim_unwind _ _ _ _ (own_expected e)) with (kept := own_expected e ++ own_vec own_value args);
      [|apply dok_expected|intros a; reflexivity].
    eapply sim_conseq; [apply (sim_frame _ _ _ _ (own_expected e)), (IH (S i) args); lia| | |].
    - intros a. rewrite !occ_app. lia.
    - intros a. rewrite !occ_app. lia.
    - intros es xs H. split; [exact H|]. intros a. rewrite !occ_app. lia. }
  intros es xs H. apply sim_ret; [split; assumption|].
  cbn [own_expecteds fst snd]. intros a. rewrite !occ_app. cbn [occ]. lia.
Qed.

Lemma x_convert_lucky_all : forall ps i rest args,
  x_convert what ps i (repeat false (length ps) ++ rest) args =
  match convert ps i args with Done es => Done (rest, inl es) | Fault f => Fault f end.
Proof.
  induction ps as [|T r IH]; intros i rest args; cbn [x_convert convert repeat length app]; [reflexivity|].
  destruct (at_ args i) as [v|f]; cbn [bind ask]; [|reflexivity].
  rewrite IH. destruct (convert r (S i) args); reflexivity.
Qed.

Lemma no_bad_luck : forall n, ~ In true (repeat false n).
Proof. intros n H. apply repeat_spec in H. discriminate. Qed.

Lemma convert_fits : forall ps (args : vec (vec bytes)) h, length ps = length (items args) ->
  ledger h -> has h (own_vec own_value args) ->
  match b_convert fails what ps 0 args h with
  | Done (h', inl es) =>
      exists xs l, expecteds_rel ps es xs /\
        books h h' (own_vec own_value args) (own_expecteds ps es ++ own_vec own_value args) l /\
        forall rest, x_convert what ps 0 (l ++ rest) (map see_value (items args)) = Done (rest, inl xs)
  | Done (h', inr x) =>
      exists l, books h h' (own_vec own_value args) (own_vec own_value args) l /\
        forall rest, x_convert what ps 0 (l ++ rest) (map see_value (items args)) = Done (rest, inr x)
  | Fault f => exists l, excused l /\ forall rest,
      x_convert what ps 0 (l ++ rest) (map see_value (items args)) = Fault f
  end.
Proof.
  intros ps args h Hl Hh Hhas.
  assert (Hl0 : 0 + length ps <= length (items args)) by lia.
  pose proof (convert_sim ps 0 args Hl0 h Hh Hhas) as H.
  destruct (b_convert fails what ps 0 args h) as [[h1 [es|e]]|f] eqn:E.
  - destruct H as ((xs & Ex & Hr) & K & B & N & L). exists xs, (repeat false (length ps)).
    split; [exact Hr|]. split.
    + split; [exact K|]. split; [exact B|]. split; [|exact L]. intros Hin. now apply no_bad_luck in Hin.
    + intros rest. now rewrite x_convert_lucky_all, Ex.
  - destruct H as (-> & K & B & S & L). exists [true]. split.
    + split; [exact K|]. split; [exact B|]. split; [auto|exact L].
    + intros rest. destruct ps as [|T r]; [discriminate E|].
      cbn [app x_convert]. unfold at_. destruct (items args) as [|v vs]; [discriminate Hl|].
      reflexivity.
  - exists (repeat false (length ps)). split; [excuse|]. intros rest. now rewrite x_convert_lucky_all, H.
Qed.

Lemma any_failed_fits : forall ps es xs, expecteds_rel ps es xs ->
  b_any_failed ps es = any_failed ps xs.
Proof.
  induction ps as [|T r IH]; intros es xs H; [reflexivity|]. destruct H as [H1 H2].
  cbn [b_any_failed any_failed]. destruct (fst es), (fst xs); try contradiction; auto.
Qed.

Lemma take_values_fits : forall ps es xs, expecteds_rel ps es xs ->
  b_take_values ps es = take_values ps xs.
Proof.
  induction ps as [|T r IH]; intros es xs H; [reflexivity|]. destruct H as [H1 H2].
  cbn [b_take_values take_values]. destruct (fst es), (fst xs); try contradiction; [|reflexivity].
  cbn [expected_rel] in H1. subst. now rewrite (IH _ _ H2).
Qed.

Lemma report_failed_fits : forall ps es xs c h, expecteds_rel ps es xs -> ledger h ->
  has h (own_ctx c ++ own_expecteds ps es) ->
  match b_report_failed fails what ps es c h with
  | Done (h', (c', o)) => exists l, books h h' (own_ctx c) (own_ctx c') l /\
      forall rest, x_report_failed what ps (l ++ rest) xs (see_ctx c) = (rest, see_ctx c', o)
  | Fault _ => False
  end.
Proof.
  induction ps as [|T r IH]; intros es xs c h Hr Hh Hhas; cbn [b_report_failed x_report_failed].
  { exists []. split; [now apply books_none|reflexivity]. }
  destruct Hr as [H1 H2]. cbn [own_expecteds] in Hhas.
  destruct (fst es) as [v|s], (fst xs) as [w|t]; try contradiction; cbn [own_expected] in Hhas.
  { now apply IH. }
  cbn [expected_rel] in H1.
  assert (Hm : sim (own_ctx c ++ own_str s) (fun c' => own_ctx c' ++ own_str s) (own_ctx c ++ own_str s)
                 (b_report fails what (str_copy fails what s) c) (Done tt)
                 (fun c' _ => see_ctx c' = cc_reportError (see_ctx c) t)).
  { apply report_sim. eapply sim_conseq; [apply (str_copy_sim _ _ s t H1)|intros a; reflexivity..|].
    intros x y H. split; [exact H|]. intros a. rewrite !occ_app. lia. }
  assert (Hhas0 : has h (own_ctx c ++ own_str s)).
  { intros a. specialize (Hhas a). rewrite !occ_app in *. lia. }
  pose proof (sim_books _ _ _ _ _ _ _ _ Hm h Hh Hhas0) as B.
  destruct (b_report fails what (str_copy fails what s) c h) as [[h1 [c1|e]]|f]; cbn [bind]; [| |exact B].
  - destruct B as [Hc B].
    assert (B1 : books h h1 (own_ctx c) (own_ctx c1) [false]).
    { apply (books_eqv _ _ _ _ _ _ _ B). intros a. rewrite !occ_app. lia. }
    assert (Hhas1 : has h1 (own_ctx c1 ++ own_expecteds r (snd es))).
    { apply (books_has _ _ _ _ _ _ B1). intros a. specialize (Hhas a). rewrite !occ_app in *. lia. }
    specialize (IH (snd es) (snd xs) c1 h1 H2 (proj1 B1) Hhas1).
    destruct (b_report_failed fails what r (snd es) c1 h1) as [[h2 [c2 o]]|f]; [|exact IH].
    destruct IH as (l & B2 & X). exists ([false] ++ l). split.
    + apply (books_trans _ _ _ _ _ _ _ _ _ (fun _ => eq_refl) B1 B2).
    + intros rest. cbn [app x_report ask]. rewrite <- Hc. apply X.
  - destruct B as [-> B]. exists [true]. split; [|reflexivity].
    apply (books_eqv _ _ _ _ _ _ _ B). intros a. rewrite !occ_app. lia.
Qed.

(** ** The text of the result *)

Lemma text_fits : forall r v h, ledger h ->
  match b_text fails what r v h with
  | Done (h', inl t) => exists l, books h h' [] (own_option t) l /\
      forall rest, x_text what r (l ++ rest) v = Done (rest, inl (option_map str_text t))
  | Done (h', inr x) => exists l, books h h' [] [] l /\
      forall rest, x_text what r (l ++ rest) v = Done (rest, inr x)
  | Fault f => exists l, excused l /\ forall rest, x_text what r (l ++ rest) v = Fault f
  end.
Proof.
  intros r v h Hh.
  assert (Hs : forall t, match b_sprintf fails what t h with
    | Done (h', inl s) => holds s t /\ books h h' [] (own_str s) [false]
    | Done (h', inr e) => e = bad what /\ books h h' [] [] [true]
    | Fault _ => False end).
  { intros t. apply (sim_books _ _ _ _ _ _ _ _ (b_sprintf_sim fails what t) h Hh (has_nil h)). }
  unfold b_text, follow, lift.
  destruct r as [|T|T|nm].
  { cbn [rtext bind ret]. exists []. split; [now apply books_none|reflexivity]. }
  all: cbn [x_text rtext];
    match goal with |- context [p_text ?q ?w] => destruct (p_text q w) as [t|f] end; cbn [bind];
    [|exists [false]; split; [excuse|reflexivity]];
    specialize (Hs t); destruct (b_sprintf fails what t h) as [[h1 [s|e]]|f]; cbn [bind ret];
    [destruct Hs as [Ht Hb]; exists [false]; split; [exact Hb|];
     intros rest; cbn [app ask option_map]; now rewrite (holds_text _ _ Ht)
    |destruct Hs as [-> Hb]; exists [true]; split; [exact Hb|reflexivity]
    |contradiction].
Qed.

(** ** Calls *)

(** A call of [b] on a context goes as [x] does with some luck. *)
Definition call_fits (c : bctx) (h : heap)
    (b : outcome (heap * (state * bctx * (unit + exn))))
    (x : luck -> outcome (luck * state * callctx * (unit + exn))) (pre : list nat) : Prop :=
  match b with
  | Done (h', (s', c', r)) =>
      good s' /\ exists l, books h h' (own_ctx c ++ pre) (own_ctx c') l /\
        forall rest, x (l ++ rest) = Done (rest, s', see_ctx c', r)
  | Fault f => exists l, excused l /\ forall rest, x (l ++ rest) = Fault f
  end.

Lemma hasErrors_see : forall c v, cc_return (see_ctx c) (option_map str_text v) = see_ctx (with_return c v).
Proof. reflexivity. Qed.

Lemma invoke_fits : forall nb nx, nest_ok nb nx -> forall sid f s c es xs h,
  (forall vs, installs lexer_ok (f_body f vs)) ->
  expecteds_rel (f_params f) es xs -> good s -> ledger h ->
  has h (own_ctx c ++ own_expecteds (f_params f) es) ->
  call_fits c h (b_invoke fails what sg nb sid f s c es h)
    (fun l => x_invoke sg what nx sid f l s (see_ctx c) xs) (own_expecteds (f_params f) es).
Proof.
  intros nb nx N sid f s c es xs h Hb Hr G Hh Hhas. unfold call_fits, b_invoke, x_invoke.
  rewrite <- (any_failed_fits _ _ _ Hr). set (oe := own_expecteds (f_params f) es) in *.
  pose proof (dok_expecteds (f_params f) es) as De. fold oe in De.
  destruct (b_any_failed (f_params f) es).
  - pose proof (report_failed_fits _ _ _ _ _ Hr Hh Hhas) as B.
    destruct (b_report_failed fails what (f_params f) es c h) as [[h1 [c1 o]]|ft]; cbn [bind];
      [|contradiction].
    destruct B as (l & B & X).
    destruct (books_dtor _ _ _ _ _ _ _ B De) as (h2 & E2 & B2).
    { pose proof (books_has _ _ _ _ _ _ B Hhas) as H. intros a. specialize (H a). rewrite occ_app in H. lia. }
    rewrite E2. cbn [bind]. split; [assumption|]. exists l. split; [exact B2|].
    intros rest. now rewrite X.
  - rewrite <- (take_values_fits _ _ _ Hr).
    destruct (b_take_values (f_params f) es) as [vs|ft]; cbn [bind]; [|exists []; split; [excuse|reflexivity]].
    assert (Hc : has h (own_ctx c)).
    { intros a. specialize (Hhas a). rewrite occ_app in Hhas. lia. }
    pose proof (run_fits nb nx N _ sid (f_body f vs) (Hb vs) s c h G Hh Hc) as P.
    destruct (b_run fails what sg nb sid s c (f_body f vs) h) as [[h1 [[s1 c1] [v|x]]]|ft]; cbn [bind].
    + destruct P as (G1 & l1 & B1 & X1).
      pose proof (books_has _ _ _ _ _ _ B1 Hhas) as Hh1.
      pose proof (text_fits (f_result f) v h1 (proj1 B1)) as T.
      destruct (b_text fails what (f_result f) v h1) as [[h2 [rv|x]]|ft]; cbn [bind].
      * destruct T as (l2 & B2 & X2).
        assert (B12 : books h h2 (own_ctx c) (own_ctx c1 ++ own_option rv) (l1 ++ l2)).
        { apply (books_trans h h1 h2 _ (own_ctx c1) (own_ctx c1) _ l1 l2 (fun _ => eq_refl) B1).
          apply (books_eqv _ _ _ _ _ _ _ B2). intros a. rewrite occ_app. cbn [occ]. lia. }
        pose proof (books_has _ _ _ _ _ _ B12 Hhas) as Hh2.
        set (gone := if cc_hasErrors (see_ctx c1) then rv else br_return (bc_result c1)).
        set (c2 := if cc_hasErrors (see_ctx c1) then c1 else with_return c1 rv).
        assert (Hsplit : forall a, occ (own_ctx c1) a + occ (own_option rv) a =
                                   occ (own_ctx c2) a + occ (own_option gone) a).
        { intros a. unfold c2, gone. destruct (cc_hasErrors (see_ctx c1)); [lia|].
          unfold own_ctx, own_result, with_return.
          cbn [bc_input bc_result br_input br_errors br_return br_output]. rewrite !occ_app. lia. }
        destruct (books_dtor _ _ _ _ _ _ _ B12 (dok_option gone)) as (h3 & E3 & B3).
        { intros a. specialize (Hh2 a). specialize (Hsplit a). rewrite !occ_app in Hh2. lia. }
        rewrite E3. cbn [bind].
        assert (B3' : books h h3 (own_ctx c) (own_ctx c2) (l1 ++ l2)).
        { apply (books_eqv _ _ _ _ _ _ _ B3). intros a. specialize (Hsplit a). rewrite !occ_app. lia. }
        destruct (books_dtor _ _ _ _ _ _ _ B3' De) as (h4 & E4 & B4).
        { pose proof (books_has _ _ _ _ _ _ B3' Hhas) as H. intros a. specialize (H a). rewrite occ_app in H. lia. }
        rewrite E4. cbn [bind]. split; [assumption|]. exists (l1 ++ l2). split; [exact B4|].
        intros rest. rewrite <- app_assoc, X1. cbn [bind]. rewrite X2. cbn [bind].
        unfold c2. destruct (cc_hasErrors (see_ctx c1)); reflexivity.
      * destruct T as (l2 & B2 & X2).
        assert (B12 : books h h2 (own_ctx c) (own_ctx c1) (l1 ++ l2)).
        { apply (books_trans h h1 h2 _ (own_ctx c1) (own_ctx c1) _ l1 l2 (fun _ => eq_refl) B1).
          apply (books_eqv _ _ _ _ _ _ _ B2). intros a. cbn [occ]. lia. }
        destruct (books_dtor _ _ _ _ _ _ _ B12 De) as (h4 & E4 & B4).
        { pose proof (books_has _ _ _ _ _ _ B12 Hhas) as H. intros a. specialize (H a). rewrite occ_app in H. lia. }
        rewrite E4. cbn [bind]. split; [assumption|]. exists (l1 ++ l2). split; [exact B4|].
        intros rest. rewrite <- app_assoc, X1. cbn [bind]. now rewrite X2.
      * destruct T as (l2 & Qf & X2). exists (l1 ++ l2). split; [excuse|].
        intros rest. rewrite <- app_assoc, X1. cbn [bind]. now rewrite X2.
    + destruct P as (G1 & l1 & B1 & X1).
      destruct (books_dtor _ _ _ _ _ _ _ B1 De) as (h4 & E4 & B4).
      { pose proof (books_has _ _ _ _ _ _ B1 Hhas) as H. intros a. specialize (H a). rewrite occ_app in H. lia. }
      rewrite E4. cbn [bind]. split; [assumption|]. exists l1. split; [exact B4|].
      intros rest. now rewrite X1.
    + destruct P as (l1 & Qf & X1). exists l1. split; [excuse|]. intros rest. now rewrite X1.
Qed.

Lemma trampoline_fits : forall nb nx, nest_ok nb nx -> forall cl s c h,
  arity (code (snd cl)) = length (items (bi_args (bc_input c))) ->
  good s -> ledger h -> has h (own_ctx c) ->
  call_fits c h (b_invokeTrampoline fails what code sg nb cl s c h)
    (fun l => x_invokeTrampoline code sg what nx cl l s (see_ctx c)) [].
Proof.
  intros nb nx N cl s c h Ha G Hh Hhas. unfold call_fits, b_invokeTrampoline, x_invokeTrampoline.
  set (args := bi_args (bc_input c)) in *.
  change (i_args (cc_input (see_ctx c))) with (map see_value (items args)).
  assert (Hown : exists rest, forall a, occ (own_ctx c) a = occ (own_vec own_value args) a + occ rest a).
  { exists (own_vec own_named (bi_named (bc_input c)) ++ own_result (bc_result c)).
    intros a. unfold own_ctx, own_input, args. rewrite !occ_app. lia. }
  destruct Hown as (ro & Hown).
  assert (Hargs : has h (own_vec own_value args)).
  { intros a. specialize (Hhas a). rewrite Hown in Hhas. lia. }
  rewrite arity_params in Ha.
  pose proof (convert_fits (f_params (code (snd cl))) args h Ha Hh Hargs) as C.
  destruct (b_convert fails what (f_params (code (snd cl))) 0 args h) as [[h1 [es|x]]|ft]; cbn [bind].
  - destruct C as (xs & l1 & Hr & B1 & X1).
    assert (B1' : books h h1 (own_ctx c) (own_ctx c ++ own_expecteds _ es) l1).
    { apply (books_eqv _ _ _ _ _ _ _ B1). intros a. rewrite !occ_app. lia. }
    assert (Hh1 : has h1 (own_ctx c ++ own_expecteds _ es)).
    { intros a. destruct B1' as (_ & B & _). specialize (B a). specialize (Hhas a). lia. }
    pose proof (invoke_fits nb nx N (fst cl) (code (snd cl)) s c es xs h1 (HF (snd cl)) Hr G (proj1 B1) Hh1) as P.
    unfold call_fits in P.
    destruct (b_invoke fails what sg nb (fst cl) (code (snd cl)) s c es h1) as [[h2 [[s2 c2] r]]|ft].
    + destruct P as (G2 & l2 & B2 & X2). split; [assumption|]. exists (l1 ++ l2). split.
      * apply (books_eqv h h2 (own_ctx c) (own_ctx c2)); [|intros a; rewrite occ_app; cbn [occ]; lia].
        apply (books_trans _ _ _ _ _ _ _ _ _ (fun _ => eq_refl) B1' B2).
      * intros rest. rewrite <- app_assoc, X1. cbn [bind]. apply X2.
    + destruct P as (l2 & Qf & X2). exists (l1 ++ l2). split; [excuse|]. intros rest.
      rewrite <- app_assoc, X1. cbn [bind]. apply X2.
  - destruct C as (l1 & B1 & X1). split; [assumption|]. exists l1. split.
    + apply (books_eqv _ _ _ _ _ _ _ B1). intros a. rewrite !occ_app. cbn [occ]. lia.
    + intros rest. now rewrite X1.
  - destruct C as (l1 & Qf & X1). exists l1. split; [excuse|]. intros rest. now rewrite X1.
Qed.

Lemma dispatch_fits : forall nb nx, nest_ok nb nx -> forall fs s c h,
  good s -> ledger h -> has h (own_ctx c) ->
  match b_dispatch fails what code sg nb fs s c h with
  | Done None => forall l, x_dispatch code sg what nx fs l s (see_ctx c) = Done None
  | Done (Some (h', (s', c', r))) =>
      good s' /\ exists l, books h h' (own_ctx c) (own_ctx c') l /\
        forall rest, x_dispatch code sg what nx fs (l ++ rest) s (see_ctx c) =
                     Done (Some (rest, s', see_ctx c', r))
  | Fault f => exists l, excused l /\ forall rest,
      x_dispatch code sg what nx fs (l ++ rest) s (see_ctx c) = Fault f
  end.
Proof.
  intros nb nx N. induction fs as [|f r IH]; intros s c h G Hh Hhas; cbn [b_dispatch x_dispatch].
  { reflexivity. }
  assert (El : length (i_args (cc_input (see_ctx c))) = length (items (bi_args (bc_input c)))).
  { cbn [see_ctx cc_input see_input i_args]. apply map_length. }
  rewrite El. destruct (Nat.eqb_spec (arity (code (snd f))) (length (items (bi_args (bc_input c))))) as [Ha|Ha].
  2:{ now apply IH. }
  pose proof (trampoline_fits nb nx N f s c h Ha G Hh Hhas) as P. unfold call_fits in P.
  destruct (b_invokeTrampoline fails what code sg nb f s c h) as [[h1 [[s1 c1] o]]|ft]; cbn [bind].
  - destruct P as (G1 & l & B & X). split; [assumption|]. exists l. split.
    + apply (books_eqv _ _ _ _ _ _ _ B). intros a. rewrite occ_app. cbn [occ]. lia.
    + intros rest. now rewrite X.
  - destruct P as (l & Qf & X). exists l. split; [excuse|]. intros rest. now rewrite X.
Qed.

(** ** The message about the number of arguments *)

Lemma append_here : forall s t lit0 C D (own : C -> list nat) (k : str -> M C) (o : outcome D) R,
  holds s t -> (forall x, holds x (t ++ lit0) -> sim (own_str x) own [] (k x) o R) ->
  sim (own_str s) own [] (follow (unwind (str_destroy s) (str_append fails what s lit0)) k) o R.
Proof.
  intros s t lit0 C D own k o R Hs Hk.
  eapply (sim_step _ _ _ _ _ _ [] _ (own_str s) own_str []);
    [|intros a; now rewrite app_nil_r|intros a; reflexivity|].
  - eapply (sim_unwind _ _ _ _ (own_str s)); [apply str_append_sim|apply dok_str|].
    intros a. now rewrite app_nil_r.
  - intros x Hx. cbn beta in Hx. rewrite (holds_text _ _ Hs) in Hx.
    rewrite app_nil_r. now apply Hk.
Qed.

Lemma keep_here : forall s C D (own : C -> list nat) (k : str -> M C) (o : outcome D) R,
  sim (own_str s) own [] (k s) o R -> sim (own_str s) own [] (follow (ret s) k) o R.
Proof. intros s C D own k o R H h Hh Hhas. exact (H h Hh Hhas). Qed.

Lemma expected_loop_sim : forall fs i n s t, holds s t ->
  sim (own_str s) own_str [] (b_expected_loop fails what code fs i n s) (Done tt)
      (fun x _ => holds x (expected_loop code fs i n t)).
Proof.
  induction fs as [|f r IH]; intros i n s t Hs; cbn [b_expected_loop expected_loop].
  { apply sim_ret; [exact Hs|intros a; reflexivity]. }
  cbv zeta.
  assert (Hnum : forall s t, holds s t ->
    sim (own_str s) own_str []
      (num <~ unwind (str_destroy s) (b_sprintf fails what (printf_zu (arity (code (snd f))))) ;;
       acc <~ unwind (both (str_destroy num) (str_destroy s))
                (t <~ str_read num ;; str_append fails what s t) ;;
       _ <~ run (str_destroy num) ;;
       b_expected_loop fails what code r (S i) n acc) (Done tt)
      (fun x _ => holds x (expected_loop code r (S i) n (t ++ printf_zu (arity (code (snd f))))))).
  { clear s t Hs. intros s t Hs.
    eapply (sim_step _ _ _ _ _ _ [] _ (own_str s) (fun x => own_str x ++ own_str s) []);
      [|intros a; now rewrite app_nil_r|intros a; reflexivity|].
    { eapply (sim_unwind _ _ _ _ (own_str s)) with (kept := own_str s); [|apply dok_str|intros a; now rewrite app_nil_r].
      eapply sim_conseq; [apply (sim_frame _ _ _ _ (own_str s)), b_sprintf_sim|intros a; reflexivity..|].
      intros x y H. split; [exact H|intros a; reflexivity]. }
    intros num Hnum.
    eapply (sim_step _ _ _ _ _ _ [] _ (own_str s ++ own_str num) (fun x => own_str x ++ own_str num) [])
      with (R1 := fun x (_ : unit) => holds x (str_text s ++ printf_zu (arity (code (snd f))))).
    { eapply (sim_unwind _ _ _ _ (own_str num ++ own_str s)) with (kept := own_str s ++ own_str num);
        [|apply dok_both; apply dok_str|intros a; rewrite !occ_app; cbn [occ]; lia].
      eapply str_read_sim with (F := own_str s); [exact Hnum|intros a; rewrite !occ_app; lia|].
      apply sim_frame. apply str_append_sim. }
    { intros a. rewrite !occ_app. cbn [occ]. lia. }
    { intros a. reflexivity. }
    intros x Hx. rewrite (holds_text _ _ Hs) in Hx.
    apply (sim_then_run _ _ _ _ (own_str x) (own_str num));
      [apply dok_str|intros a; rewrite !occ_app; cbn [occ]; lia|].
    now apply IH. }
  destruct ((0 <? i) && negb (i =? n - 1)).
  - apply (append_here s t); [exact Hs|]. intros x Hx.
    destruct ((0 <? i) && (i =? n - 1)).
    + apply (append_here x (t ++ lit ", ")); [exact Hx|]. intros y Hy. now apply Hnum.
    + apply keep_here. now apply Hnum.
  - apply keep_here.
    destruct ((0 <? i) && (i =? n - 1)).
    + apply (append_here s t); [exact Hs|]. intros y Hy. now apply Hnum.
    + apply keep_here. now apply Hnum.
Qed.

Lemma wrongArity_sim : forall name fs n,
  sim [] own_str [] (b_wrongArity fails what code name fs n) (Done tt)
      (fun x _ => holds x (wrongArityError code name fs n)).
Proof.
  intros name fs n. unfold b_wrongArity, wrongArityError.
  eapply (sim_step _ _ _ _ _ _ []); [apply str_make_sim|intros a; reflexivity|intros a; reflexivity|].
  intros e He. rewrite app_nil_r.
  eapply (sim_step _ _ _ _ _ _ [] _ (own_str e) own_str [])
    with (R1 := fun x (_ : unit) => holds x []);
    [|intros a; now rewrite app_nil_r|intros a; reflexivity|].
  { eapply (sim_unwind _ _ _ _ (own_str e)) with (kept := own_str e); [|apply dok_str|intros a; now rewrite app_nil_r].
    eapply sim_conseq; [apply str_reserve_sim|intros a; reflexivity..|].
    intros x [] [Hx Hc]. split; [|intros a; reflexivity].
    rewrite (holds_text _ _ He) in Hx. destruct x as [|b cap u]; [cbn in Hc; lia|].
    cbn in Hx. subst u. exists b, cap. reflexivity. }
  intros e1 He1. rewrite app_nil_r.
  eapply (sim_step _ _ _ _ _ _ []);
    [apply (expected_loop_sim fs 0 (length fs) e1 [] He1)|intros a; now rewrite app_nil_r|intros a; reflexivity|].
  intros e2 He2. rewrite app_nil_r. cbn beta in He2.
  eapply (sim_step _ _ _ _ _ _ [] _ (own_str e2) (fun x => own_str x ++ own_str e2) []);
    [|intros a; now rewrite app_nil_r|intros a; reflexivity|].
  { eapply (sim_unwind _ _ _ _ (own_str e2)) with (kept := own_str e2); [|apply dok_str|intros a; now rewrite app_nil_r].
    eapply str_read_sim with (F := []); [exact He2|intros a; now rewrite app_nil_r|].
    eapply sim_conseq; [apply (sim_frame _ _ _ _ (own_str e2)), b_sprintf_sim|intros a; reflexivity..|].
    intros x y H. split; [exact H|intros a; reflexivity]. }
  intros m Hm.
  apply (sim_then_run _ _ _ _ (own_str m) (own_str e2));
    [apply dok_str|intros a; rewrite !occ_app; cbn [occ]; lia|].
  apply sim_ret; [exact Hm|intros a; reflexivity].
Qed.

(** ** Answers *)

(** reportError at the end of execute. *)
Lemma report_fits : forall s c h m t, good s -> ledger h -> has h (own_ctx c) ->
  sim [] own_str [] m (Done tt) (fun x _ => holds x t) ->
  call_fits c h
    (a <- b_report fails what m c h ;;
     match a with
     | (h, inr x) => Done (h, (s, c, inr x))
     | (h, inl c) => Done (h, (s, c, inl tt))
     end)
    (fun l => match x_report what l (see_ctx c) t with (l, c, o) => Done (l, s, c, o) end) [].
Proof.
  intros s c h m t G Hh Hhas Hm. unfold call_fits.
  pose proof (sim_books _ _ _ _ _ _ _ _ (report_sim0 fails what m c t Hm) h Hh Hhas) as B.
  destruct (b_report fails what m c h) as [[h1 [c1|e]]|f]; cbn [bind]; [| |contradiction].
  - destruct B as [Hc B]. split; [assumption|]. exists [false]. split.
    + apply (books_eqv _ _ _ _ _ _ _ B). intros a. rewrite occ_app. cbn [occ]. lia.
    + intros rest. cbn [app x_report ask]. now rewrite Hc.
  - destruct B as [-> B]. split; [assumption|]. exists [true]. split; [|reflexivity].
    apply (books_eqv _ _ _ _ _ _ _ B). intros a. rewrite occ_app. cbn [occ]. lia.
Qed.

Lemma call_after : forall c c1 h h1 l b x y,
  books h h1 (own_ctx c) (own_ctx c1) l -> call_fits c1 h1 b x [] ->
  (forall rest, y (l ++ rest) = x rest) -> call_fits c h b y [].
Proof.
  intros c c1 h h1 l b x y B H E. unfold call_fits in *. destruct b as [[h2 [[s2 c2] r]]|f].
  - destruct H as (G2 & l2 & B2 & X2). split; [assumption|]. exists (l ++ l2). split.
    + rewrite app_nil_r in *. apply (books_trans _ _ _ _ _ _ _ _ _ (fun _ => eq_refl) B B2).
    + intros rest. rewrite <- app_assoc, E. apply X2.
  - destruct H as (l2 & Qf & X2). exists (l ++ l2). split; [excuse|]. intros rest. rewrite <- app_assoc, E. apply X2.
Qed.

Lemma execute_ctx_fits : forall nb nx, nest_ok nb nx -> forall s c h,
  good s -> ledger h -> has h (own_ctx c) ->
  call_fits c h (b_execute_ctx fails what code sg catching nb s c h)
    (fun l => x_execute_ctx code sg catching what nx l s (see_ctx c)) [].
Proof.
  intros nb nx N s c h G Hh Hhas. unfold b_execute_ctx, x_execute_ctx. cbv zeta.
  change (i_name (cc_input (see_ctx c))) with (bi_name (bc_input c)).
  destruct (bi_name (bc_input c)) as [|ch name].
  { apply report_fits; [assumption..|apply str_make_sim]. }
  set (nm := ch :: name).
  destruct (get sg s nm) as [[cmd|]|f]; cbn [bind].
  3:{ exists []. split; [excuse|reflexivity]. }
  2:{ apply report_fits; [assumption..|apply b_sprintf_sim]. }
  assert (El : length (i_args (cc_input (see_ctx c))) = length (items (bi_args (bc_input c)))).
  { cbn [see_ctx cc_input see_input i_args]. apply map_length. }
  pose proof (dispatch_fits nb nx N (c_functors cmd) s c h G Hh Hhas) as P.
  destruct (b_dispatch fails what code sg nb (c_functors cmd) s c h) as [[[h1 [[s1 c1] [[]|x]]]|]|f];
    cbn [bind].
  - destruct P as (G1 & l & B & X). split; [assumption|]. exists l. split.
    + apply (books_eqv _ _ _ _ _ _ _ B). intros a. rewrite occ_app. cbn [occ]. lia.
    + intros rest. now rewrite X.
  - destruct P as (G1 & l & B & X).
    assert (Hh1 : has h1 (own_ctx c1)).
    { intros a. destruct B as (_ & B & _). specialize (B a). specialize (Hhas a). lia. }
    destruct catching.
    + destruct x as [text|].
      * eapply (call_after c c1); [exact B|apply report_fits; [assumption|apply B|assumption|apply b_sprintf_sim]|].
        intros rest. now rewrite X.
      * eapply (call_after c c1); [exact B|apply report_fits; [assumption|apply B|assumption|apply str_make_sim]|].
        intros rest. now rewrite X.
    + split; [assumption|]. exists l. split.
      * apply (books_eqv _ _ _ _ _ _ _ B). intros a. rewrite occ_app. cbn [occ]. lia.
      * intros rest. now rewrite X.
  - unfold call_fits.
    pose proof (report_fits s c h _ _ G Hh Hhas
                 (wrongArity_sim nm (c_functors cmd) (length (items (bi_args (bc_input c)))))) as R.
    unfold call_fits in R.
    match goal with |- match ?b with _ => _ end => destruct b as [[h2 [[s2 c2] r]]|f] end.
    + destruct R as (G2 & l2 & B2 & X2). split; [assumption|]. exists l2. split; [exact B2|].
      intros rest. rewrite P. cbn [bind]. rewrite El. apply X2.
    + destruct R as (l2 & Qf & X2). exists l2. split; [excuse|]. intros rest. rewrite P. cbn [bind]. rewrite El. apply X2.
  - destruct P as (l & Qf & X). exists l. split; [excuse|]. intros rest. now rewrite X.
Qed.

(** What answers of [b] and [x] have in common. *)
Definition answer_fits (h : heap) (pre : list nat)
    (b : outcome (heap * (state * (bresult + exn))))
    (x : luck -> outcome (luck * state * (result + exn))) : Prop :=
  match b with
  | Done (h', (s', r)) =>
      good s' /\ exists l, books h h' pre (own_answer r) l /\
        forall rest, x (l ++ rest) = Done (rest, s', see_answer r)
  | Fault f => exists l, excused l /\ forall rest, x (l ++ rest) = Fault f
  end.

Lemma execute_input_fits : forall nb nx, nest_ok nb nx -> forall s inp h,
  good s -> ledger h -> has h (own_input inp) ->
  answer_fits h (own_input inp) (b_execute_input fails what code sg catching nb s inp h)
    (fun l => x_execute_input code sg catching what nx l s (see_input inp)).
Proof.
  intros nb nx N s inp h G Hh Hhas. unfold answer_fits, b_execute_input, x_execute_input.
  assert (Hm : sim (own_input inp) (fun x => own_str x ++ own_input inp) []
                 (unwind (input_destroy inp) (str_make fails what [])) (Done tt)
                 (fun x _ => holds x [])).
  { eapply (sim_unwind _ _ _ _ (own_input inp)) with (kept := own_input inp);
      [|apply dok_input|intros a; now rewrite app_nil_r].
    eapply sim_conseq; [apply (sim_frame _ _ _ _ (own_input inp)), str_make_sim|intros a; reflexivity..|].
    intros x y H. split; [exact H|intros a; reflexivity]. }
  pose proof (sim_books _ _ _ _ _ _ _ _ Hm h Hh Hhas) as B0.
  destruct (unwind (input_destroy inp) (str_make fails what []) h) as [[h1 [out|e]]|f]; cbn [bind];
    [| |contradiction].
  2:{ destruct B0 as [-> B0]. split; [assumption|]. exists [true]. split; [exact B0|reflexivity]. }
  destruct B0 as [Ho B0]. set (c := BCtx inp (BResult b_no_input VNull None out)).
  assert (Hsee : see_ctx c = CallCtx (see_input inp) empty_result).
  { unfold c, see_ctx, see_result, empty_result. cbn [bc_input bc_result br_input br_errors br_return br_output].
    now rewrite (holds_text _ _ Ho). }
  assert (B1 : books h h1 (own_input inp) (own_ctx c) [false]).
  { apply (books_eqv _ _ _ _ _ _ _ B0). intros a. unfold c, own_ctx, own_result.
    cbn [bc_input bc_result br_input br_errors br_return br_output own_vec own_option].
    change (own_input b_no_input) with (@nil nat). rewrite !occ_app. cbn [occ]. lia. }
  assert (Hc : has h1 (own_ctx c)).
  { intros a. destruct B1 as (_ & B & _). specialize (B a). specialize (Hhas a). lia. }
  pose proof (execute_ctx_fits nb nx N s c h1 G (proj1 B1) Hc) as P. unfold call_fits in P.
  rewrite Hsee in P.
  destruct (b_execute_ctx fails what code sg catching nb s c h1) as [[h2 [[s2 c2] [[]|x]]]|f]; cbn [bind].
  - destruct P as (G2 & l & B2 & X). rewrite app_nil_r in B2.
    pose proof (books_trans _ _ _ _ _ _ _ _ _ (fun _ => eq_refl) B1 B2) as B3.
    destruct (books_dtor _ _ _ _ _ _ _ B3 (dok_input _ (br_input (bc_result c2)))) as (h3 & E3 & B4).
    { intros a. destruct B3 as (_ & B & _). specialize (B a). specialize (Hhas a).
      unfold own_ctx, own_result in B. rewrite !occ_app in B. lia. }
    rewrite E3. cbn [bind]. split; [assumption|]. exists ([false] ++ l). split.
    + apply (books_eqv _ _ _ _ _ _ _ B4). intros a. cbn [own_answer]. unfold own_ctx, own_result.
      cbn [br_input br_errors br_return br_output]. rewrite !occ_app. lia.
    + intros rest. cbn [app ask]. unfold x_answer. rewrite X. reflexivity.
  - destruct P as (G2 & l & B2 & X). rewrite app_nil_r in B2.
    pose proof (books_trans _ _ _ _ _ _ _ _ _ (fun _ => eq_refl) B1 B2) as B3.
    destruct (books_dtor _ _ _ _ _ _ _ B3 (dok_ctx c2)) as (h3 & E3 & B4).
    { intros a. destruct B3 as (_ & B & _). specialize (B a). specialize (Hhas a). lia. }
    rewrite E3. cbn [bind]. split; [assumption|]. exists ([false] ++ l). split.
    + apply (books_eqv _ _ _ _ _ _ _ B4). intros a. cbn [own_answer]. rewrite occ_app. cbn [occ]. lia.
    + intros rest. cbn [app ask]. unfold x_answer. rewrite X. reflexivity.
  - destruct P as (l & Qf & X). exists ([false] ++ l). split; [excuse|]. intros rest. cbn [app ask]. unfold x_answer.
    rewrite X. reflexivity.
Qed.

Lemma syntax_sim : forall e t, holds e t ->
  sim (own_str e) own_result [] (b_syntax fails what e) (Done tt)
      (fun r _ => see_result r = Result no_input [lit "Syntax error: " ++ t] None []).
Proof.
  intros e t He. unfold b_syntax.
  eapply (sim_step _ _ _ _ _ _ [] _ (own_str e) (fun x => own_str x ++ own_str e) []);
    [|intros a; now rewrite app_nil_r|intros a; reflexivity|].
  { eapply (sim_unwind _ _ _ _ (own_str e)) with (kept := own_str e);
      [|apply dok_str|intros a; now rewrite app_nil_r].
    eapply sim_conseq; [apply (sim_frame _ _ _ _ (own_str e)), str_make_sim|intros a; reflexivity..|].
    intros x y H. split; [exact H|intros a; reflexivity]. }
  intros out Hout. rewrite app_nil_r.
  eapply (sim_step _ _ _ _ _ _ [] _ (own_str out ++ own_str e)
            (fun es => own_vec own_str es ++ own_str out ++ own_str e) [])
    with (R1 := fun es (_ : unit) => map str_text (items es) = [lit "Syntax error: " ++ t]) (y := tt);
    [|intros a; now rewrite app_nil_r|intros a; reflexivity|].
  { eapply (sim_unwind _ _ _ _ (own_str out ++ own_str e)) with (kept := own_str out ++ own_str e);
      [|apply dok_both; apply dok_str|intros a; now rewrite app_nil_r].
    eapply (sim_step _ _ _ _ _ _ (own_str out ++ own_str e));
      [apply str_make_sim|intros a; reflexivity|intros a; reflexivity|].
    intros l Hl.
    eapply (sim_step _ _ _ _ _ _ (own_str out));
      [apply (str_plus_sim _ _ l _ e t Hl He)|intros a; rewrite !occ_app; lia
      |intros a; rewrite !occ_app; lia|].
    intros m Hm.
    eapply sim_conseq
      with (pre := (own_vec own_str (VNull : vec str) ++ own_str m) ++ own_str out ++ own_str e)
           (kept := own_vec own_str (VNull : vec str) ++ own_str out ++ own_str e);
      [|intros a; cbn [own_vec app]; rewrite !occ_app; lia|intros a; reflexivity|].
    - apply sim_frame, vec_push_sim, elem_str.
    - intros es y H. split; [|intros a; reflexivity]. cbn beta in H. rewrite H. cbn [items app map].
      now rewrite (holds_text _ _ Hm). }
  intros es Hes.
  apply (sim_then_run _ _ _ _ (own_vec own_str es ++ own_str out) (own_str e));
    [apply dok_str|intros a; rewrite !occ_app; cbn [occ]; lia|].
  apply sim_ret.
  - unfold see_result. cbn [br_input br_errors br_return br_output option_map].
    rewrite Hes, (holds_text _ _ Hout). reflexivity.
  - intros a. unfold own_result. cbn [br_input br_errors br_return br_output own_vec own_option].
    change (own_input b_no_input) with (@nil nat). rewrite !occ_app. cbn [occ]. lia.
Qed.

Lemma execute_text_fits : forall nb nx, nest_ok nb nx -> forall s cmd h,
  good s -> ledger h ->
  answer_fits h [] (b_execute_text fails what code sg catching lexes nb s cmd h)
    (fun l => x_execute_text code sg catching what nx l s cmd).
Proof.
  intros nb nx N s cmd h G Hh. unfold answer_fits, b_execute_text, x_execute_text.
  destruct (s_lexer s) as [lex|] eqn:El; [|exists []; split; [excuse|reflexivity]].
  pose proof (HL lex (G lex El) cmd h Hh) as P.
  destruct (lexes lex cmd h) as [[h1 [[inp|e]|x]]|f]; cbn [bind].
  - destruct P as (K & Bg & (y & Ey & Hy) & L). apply gained_bal in Bg. cbn [own_parsed] in Bg.
    destruct y as [i|t]; [|contradiction]. cbn [shows_input] in Hy. subst i.
    assert (B1 : books h h1 [] (own_input inp) [false]).
    { split; [exact K|]. split; [exact Bg|]. split; [|exact L]. intros [E|[]]. discriminate. }
    assert (Hi : has h1 (own_input inp)).
    { intros a. specialize (Bg a). cbn [occ] in Bg. lia. }
    pose proof (execute_input_fits nb nx N s inp h1 G K Hi) as Q. unfold answer_fits in Q.
    destruct (b_execute_input fails what code sg catching nb s inp h1) as [[h2 [s2 r]]|f].
    + destruct Q as (G2 & l & B2 & X). split; [assumption|]. exists ([false] ++ l). split.
      * apply (books_trans _ _ _ _ _ _ _ _ _ (fun _ => eq_refl) B1 B2).
      * intros rest. cbn [app ask]. rewrite Ey. cbn [bind]. apply X.
    + destruct Q as (l & Qf & X). exists ([false] ++ l). split; [excuse|]. intros rest. cbn [app ask]. rewrite Ey. cbn [bind]. apply X.
  - destruct P as (K & Bg & (y & Ey & Hy) & L). apply gained_bal in Bg. cbn [own_parsed] in Bg.
    destruct y as [i|t]; [contradiction|]. cbn [shows_input] in Hy.
    assert (B1 : books h h1 [] (own_str e) [false]).
    { split; [exact K|]. split; [exact Bg|]. split; [|exact L]. intros [E|[]]. discriminate. }
    assert (Hi : has h1 (own_str e)).
    { intros a. specialize (Bg a). cbn [occ] in Bg. lia. }
    pose proof (sim_books _ _ _ _ _ _ _ _ (syntax_sim e t Hy) h1 K Hi) as B2.
    destruct (b_syntax fails what e h1) as [[h2 [r|x]]|f]; cbn [bind]; [| |contradiction].
    + destruct B2 as [Hr B2]. split; [assumption|]. exists ([false] ++ [false]). split.
      * apply (books_trans _ _ _ _ _ _ _ _ _ (fun _ => eq_refl) B1 B2).
      * intros rest. cbn [app ask]. rewrite Ey. cbn [bind ask see_answer]. now rewrite Hr.
    + destruct B2 as [-> B2]. split; [assumption|]. exists ([false] ++ [true]). split.
      * apply (books_trans _ _ _ _ _ _ _ _ _ (fun _ => eq_refl) B1 B2).
      * intros rest. cbn [app ask]. rewrite Ey. reflexivity.
  - destruct P as (K & Bg & -> & S). apply gained_bal in Bg. split; [assumption|]. exists [true]. split.
    + split; [exact K|]. split; [exact Bg|]. split; [auto|]. destruct S as (n & Hn & _). lia.
    + reflexivity.
  - exists [false]. split; [excuse|]. intros rest. cbn [app ask]. now rewrite P.
Qed.

Lemma nested_fits : forall d, nest_ok (b_nested_exec fails what code sg catching lexes d)
                                      (x_nested_exec code sg catching what d).
Proof.
  induction d as [|d IH]; intros s cmd h G Hh; cbn [b_nested_exec x_nested_exec].
  { exists []. split; [excuse|reflexivity]. }
  exact (execute_text_fits _ _ IH s cmd h G Hh).
Qed.

Lemma exec_text_fits : forall d s cmd h, good s -> ledger h ->
  answer_fits h [] (b_exec_text fails what code sg catching lexes d s cmd h)
    (fun l => x_exec_text code sg catching what d l s cmd).
Proof. intros d. apply execute_text_fits, nested_fits. Qed.

Lemma exec_input_fits : forall d s inp h, good s -> ledger h -> has h (own_input inp) ->
  answer_fits h (own_input inp) (b_exec_input fails what code sg catching lexes d s inp h)
    (fun l => x_exec_input code sg catching what d l s (see_input inp)).
Proof. intros d. apply execute_input_fits, nested_fits. Qed.
End Code.
End Run.
