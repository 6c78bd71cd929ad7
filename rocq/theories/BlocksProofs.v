(** Proofs about [Blocks.v]: the ledger in every step of parsing. *)
From Coq Require Import Ascii String NArith ZArith Bool PeanoNat Lia List Permutation.
Import ListNotations.
From Verif Require Import Util Base Lexer StringConv Serializer UMap Exec ExecThrow Blocks BlocksSpec.

Local Notation length := List.length.

(** ** Counting blocks *)

Definition one (b a : nat) : nat := if b =? a then 1 else 0.
Fixpoint occ (l : list nat) (a : nat) : nat :=
  match l with [] => 0 | b :: r => one b a + occ r a end.

Lemma occ_app : forall l r a, occ (l ++ r) a = occ l a + occ r a.
Proof. induction l as [|b l IH]; intros r a; cbn; [reflexivity|rewrite IH; lia]. Qed.

Lemma occ_count : forall l a, occ l a = count_occ Nat.eq_dec l a.
Proof.
  induction l as [|b l IH]; intros a; [reflexivity|]. cbn [occ count_occ]. unfold one.
  rewrite IH. destruct (Nat.eq_dec b a) as [->|Hn].
  - rewrite Nat.eqb_refl. reflexivity.
  - apply Nat.eqb_neq in Hn. rewrite Hn. reflexivity.
Qed.

Definition eqv (l r : list nat) : Prop := forall a, occ l a = occ r a.
Definition bal (h h' : heap) (pre post : list nat) : Prop :=
  forall a, occ (h_live h') a + occ pre a = occ (h_live h) a + occ post a.
Definition has (h : heap) (l : list nat) : Prop := forall a, occ l a <= occ (h_live h) a.

Lemma eqv_perm : forall l r, eqv l r <-> Permutation l r.
Proof.
  intros l r. rewrite (Permutation_count_occ Nat.eq_dec). unfold eqv.
  split; intros H a; specialize (H a); rewrite ?occ_count in *; exact H.
Qed.

Lemma one_refl : forall b, one b b = 1.
Proof. intros b. unfold one. now rewrite Nat.eqb_refl. Qed.

Lemma occ_in : forall l a, 0 < occ l a <-> In a l.
Proof. intros l a. rewrite occ_count. symmetry. apply count_occ_In. Qed.

(** Solve goals about counts. *)
Ltac counts :=
  let a := fresh "a" in
  unfold gained, eqv, bal, has, own_ctx, own_result, own_input, own_named, own_value, own_nothing in *;
  intros a;
  repeat match goal with
         | H : forall a : nat, occ _ a = _ |- _ => specialize (H a)
         | H : forall a : nat, occ _ a <= _ |- _ => specialize (H a)
         | H : forall a : nat, occ _ a + _ = _ |- _ => specialize (H a)
         end;
  repeat first [ progress cbn [occ app own_str own_vec own_option flat_map bi_name bi_args bi_named
                                br_input br_errors br_return br_output bc_input bc_result] in *
               | progress rewrite ?occ_app in * ];
  lia.

(** ** Destructors *)

Definition dok (d : dtor) (l : list nat) : Prop := forall h, ledger h -> has h l ->
  exists h', d h = Done h' /\ ledger h' /\ bal h h' l [] /\ h_asked h' = h_asked h.

Lemma dok_trivial : dok trivial [].
Proof. intros h Hh _. exists h. repeat split; try apply Hh. Qed.

Lemma dok_both : forall d e l r, dok d l -> dok e r -> dok (both d e) (l ++ r).
Proof.
  intros d e l r Hd He h Hh Hhas. unfold both.
  destruct (Hd h Hh) as (h1 & E1 & K1 & B1 & A1); [counts|].
  destruct (He h1 K1) as (h2 & E2 & K2 & B2 & A2).
  { counts. }
  exists h2. rewrite E1. cbn [bind]. rewrite E2. split; [reflexivity|]. split; [assumption|].
  split; [counts|congruence].
Qed.

Lemma dok_eqv : forall d l r, dok d l -> eqv l r -> dok d r.
Proof.
  intros d l r Hd He h Hh Hhas.
  destruct (Hd h Hh) as (h1 & E1 & K1 & B1 & A1); [counts|].
  exists h1. split; [assumption|]. split; [assumption|]. split; [counts|assumption].
Qed.

Lemma drop_spec : forall l b, In b l ->
  exists r, drop l b = Some r /\ (forall a, occ l a = one b a + occ r a).
Proof.
  induction l as [|x l IH]; intros b Hin; [destruct Hin|]. cbn [drop].
  destruct (Nat.eqb_spec x b) as [->|Hne].
  - exists l. split; [reflexivity|]. intros a. reflexivity.
  - destruct Hin as [->|Hin]; [congruence|]. destruct (IH b Hin) as (r & E & H).
    exists (x :: r). rewrite E. split; [reflexivity|]. intros a. cbn [occ]. rewrite H. lia.
Qed.

Lemma ledger_less : forall h l, ledger h -> (forall a, occ l a <= occ (h_live h) a) ->
  forall n, ledger (Heap l (h_next h) n).
Proof.
  intros h l [Hn Hlt] Hle n. split; cbn [h_live h_next].
  - apply (NoDup_count_occ Nat.eq_dec). intros a. rewrite <- occ_count.
    rewrite (NoDup_count_occ Nat.eq_dec) in Hn. specialize (Hn a). rewrite <- occ_count in Hn.
    specialize (Hle a). lia.
  - intros a Hin. apply Hlt. apply occ_in. apply occ_in in Hin. specialize (Hle a). lia.
Qed.

Lemma dok_release : forall b, dok (release b) [b].
Proof.
  intros b h Hh Hhas. unfold release.
  destruct (drop_spec (h_live h) b) as (r & E & H).
  { apply occ_in. specialize (Hhas b). cbn [occ] in Hhas. rewrite one_refl in Hhas. lia. }
  rewrite E. eexists. split; [reflexivity|]. split.
  { apply ledger_less; [assumption|]. intros a. rewrite H. lia. }
  split; [|reflexivity]. intros a. cbn [h_live occ]. rewrite H. lia.
Qed.

Record elem {A} (K : kind A) (own : A -> list nat) : Prop := {
  e_destroy : forall x, dok (k_destroy K x) (own x);
  e_moved : forall x, own (k_moved K x) = []
}.

Lemma dok_items : forall A (K : kind A) own l, elem K own ->
  dok (destroy_items (k_destroy K) l) (flat_map own l).
Proof.
  intros A K own l HK. induction l as [|x l IH]; [apply dok_trivial|]. cbn [destroy_items flat_map].
  eapply dok_eqv; [apply dok_both; [exact IH|apply (e_destroy _ _ HK)]|]. counts.
Qed.

Lemma dok_moved : forall A (K : kind A) own l, elem K own ->
  dok (destroy_items (k_destroy K) (map (k_moved K) l)) [].
Proof.
  intros A K own l HK. eapply dok_eqv; [apply (dok_items _ K own _ HK)|].
  induction l as [|x l IH]; [intros a; reflexivity|]. cbn [map flat_map].
  rewrite (e_moved _ _ HK). exact IH.
Qed.

Lemma dok_vec : forall A (K : kind A) own v, elem K own -> dok (vec_destroy K v) (own_vec own v).
Proof.
  intros A K own [|b c l] HK; [apply dok_trivial|]. cbn [vec_destroy own_vec].
  eapply dok_eqv; [apply dok_both; [apply (dok_items _ K own l HK)|apply dok_release]|]. counts.
Qed.

Lemma dok_str : forall s, dok (str_destroy s) (own_str s).
Proof. intros [|b c t]; [apply dok_trivial|apply dok_release]. Qed.

Lemma elem_view : forall V, elem (@view_kind V) own_nothing.
Proof. intros V. split; intros x; [apply dok_trivial|reflexivity]. Qed.

Lemma elem_str : elem str_kind own_str.
Proof. split; intros x; [apply dok_str|reflexivity]. Qed.

Lemma elem_value : forall V, elem (@value_kind V) own_value.
Proof. intros V. split; intros x; [apply dok_vec, elem_view|reflexivity]. Qed.

Lemma elem_named : forall V, elem (@named_kind V) own_named.
Proof. intros V. split; intros x; [apply dok_vec, elem_view|reflexivity]. Qed.

Lemma dok_option : forall o, dok (option_destroy o) (own_option o).
Proof. intros [s|]; [apply dok_str|apply dok_trivial]. Qed.

Lemma dok_input : forall V (i : binput V), dok (input_destroy i) (own_input i).
Proof.
  intros V i. unfold input_destroy, own_input.
  eapply dok_eqv; [apply dok_both; [apply dok_vec, elem_named|apply dok_vec, elem_value]|]. counts.
Qed.

Lemma dok_result : forall r, dok (result_destroy r) (own_result r).
Proof.
  intros r. unfold result_destroy, own_result.
  eapply dok_eqv.
  { apply dok_both; [apply dok_str|]. apply dok_both; [apply dok_option|].
    apply dok_both; [apply dok_vec, elem_str|apply dok_input]. }
  counts.
Qed.

Lemma dok_ctx : forall c, dok (ctx_destroy c) (own_ctx c).
Proof.
  intros c. unfold ctx_destroy, own_ctx.
  eapply dok_eqv; [apply dok_both; [apply dok_result|apply dok_input]|]. counts.
Qed.

(** ** Computations *)

Section Sim.
Variable fails : nat -> bool.
Variable what : bytes.
Local Notation some_failed := (some_failed fails).
Local Notation none_failed := (none_failed fails).

(** [m] takes over the blocks [pre].  It gives what [o] gives and leaves the blocks [own] of
    its result, or throws std::bad_alloc and leaves [kept]. *)
Definition sim {A B} (pre : list nat) (own : A -> list nat) (kept : list nat) (m : M A)
           (o : outcome B) (R : A -> B -> Prop) : Prop :=
  forall h, ledger h -> has h pre ->
  match m h with
  | Done (h', inl x) =>
      (exists y, o = Done y /\ R x y) /\ ledger h' /\ bal h h' pre (own x) /\
      none_failed h h' /\ h_asked h <= h_asked h'
  | Done (h', inr e) =>
      e = bad what /\ ledger h' /\ bal h h' pre kept /\ some_failed h h' /\
      h_asked h <= h_asked h'
  | Fault f => o = Fault f
  end.

Lemma none_refl : forall h h', h_asked h = h_asked h' -> none_failed h h'.
Proof. intros h h' H n Hn. lia. Qed.

Lemma sim_ret : forall A B pre (own : A -> list nat) kept (x : A) (y : B) (R : A -> B -> Prop),
  R x y -> eqv pre (own x) -> sim pre own kept (ret x) (Done y) R.
Proof.
  intros A B pre own kept x y R Hr He h Hh Hhas. cbn. split; [eauto|]. split; [assumption|].
  split; [counts|]. split; [now apply none_refl|lia].
Qed.

Lemma sim_lift : forall A (o : outcome A) kept, sim [] (fun _ => []) kept (lift o) o eq.
Proof.
  intros A [x|f] kept h Hh Hhas; cbn; [|reflexivity].
  split; [eauto|]. split; [assumption|]. split; [intros a; reflexivity|].
  split; [now apply none_refl|lia].
Qed.

Lemma sim_fault : forall A B pre (own : A -> list nat) kept f (R : A -> B -> Prop),
  sim pre own kept (lift (Fault f)) (Fault f) R.
Proof. intros A B pre own kept f R h Hh Hhas. reflexivity. Qed.

Lemma sim_run : forall d l kept, dok d l ->
  sim l (fun _ => []) kept (run d) (Done tt) (fun _ _ => True).
Proof.
  intros d l kept Hd h Hh Hhas. destruct (Hd h Hh Hhas) as (h' & E & K & Bl & Ha).
  unfold run. rewrite E. cbn. split; [exists tt; auto|]. split; [assumption|].
  split; [counts|]. split; [apply none_refl; congruence|lia].
Qed.

Lemma sim_touch : forall b kept,
  sim [b] (fun _ => [b]) kept (touch b) (Done tt) (fun _ _ => True).
Proof.
  intros b kept h Hh Hhas. unfold touch.
  assert (E : existsb (Nat.eqb b) (h_live h) = true).
  { apply existsb_exists. exists b. split; [|apply Nat.eqb_refl]. apply occ_in.
    specialize (Hhas b). cbn [occ] in Hhas. rewrite one_refl in Hhas. lia. }
  rewrite E. split; [exists tt; auto|]. split; [assumption|]. split; [intros a; reflexivity|].
  split; [now apply none_refl|lia].
Qed.

Lemma sim_new : sim [] (fun b => [b]) [] (new_block fails what) (Done tt) (fun _ _ => True).
Proof.
  intros h [Hn Hlt] Hhas. unfold new_block. destruct (fails (h_asked h)) eqn:Ef.
  - split; [reflexivity|]. split; [split; assumption|]. split; [intros a; reflexivity|].
    split; [|cbn; lia]. exists (h_asked h). cbn. split; [lia|assumption].
  - split; [exists tt; auto|]. split.
    { split; cbn [h_live h_next].
      - constructor; [|assumption]. intros Hin. specialize (Hlt _ Hin). lia.
      - intros a [<-|Hin]; [lia|]. specialize (Hlt _ Hin). lia. }
    split; [intros a; cbn; lia|]. split; [|cbn; lia].
    intros n Hb. cbn in Hb. assert (n = h_asked h) by lia. subst. assumption.
Qed.

(** Sequencing.  [F] is what the first computation leaves alone. *)
Lemma sim_follow : forall A B C D (F : list nat) pre0 pre (own1 : A -> list nat) kept1
    (own2 : C -> list nat) kept2 (m : M A) (o : outcome B) (R1 : A -> B -> Prop)
    (k : A -> M C) (k' : B -> outcome D) (R2 : C -> D -> Prop),
  sim pre own1 kept1 m o R1 ->
  eqv pre0 (pre ++ F) -> eqv (kept1 ++ F) kept2 ->
  (forall x y, R1 x y -> sim (own1 x ++ F) own2 kept2 (k x) (k' y) R2) ->
  sim pre0 own2 kept2 (follow m k) (bind o k') R2.
Proof.
  intros A B C D F pre0 pre own1 kept1 own2 kept2 m o R1 k k' R2 Hm Hp Hk HK h Hh Hhas.
  unfold follow. specialize (Hm h Hh).
  assert (Hhas1 : has h pre) by (counts). specialize (Hm Hhas1).
  destruct (m h) as [[h1 [x|e]]|f]; cbn [bind].
  - destruct Hm as ((y & -> & Hr) & K1 & B1 & N1 & L1). cbn [bind].
    specialize (HK x y Hr h1 K1). assert (Hhas2 : has h1 (own1 x ++ F)) by counts.
    specialize (HK Hhas2).
    destruct (k x h1) as [[h2 [z|e]]|f].
    + destruct HK as (Hz & K2 & B2 & N2 & L2). split; [assumption|]. split; [assumption|].
      split; [counts|]. split; [|lia].
      intros n Hn. destruct (Nat.lt_ge_cases n (h_asked h1)); [apply N1|apply N2]; lia.
    + destruct HK as (-> & K2 & B2 & (n & Hn & Hf) & L2). split; [reflexivity|].
      split; [assumption|]. split; [counts|]. split; [exists n; split; [lia|assumption]|lia].
    + assumption.
  - destruct Hm as (-> & K1 & B1 & S1 & L1). split; [reflexivity|]. split; [assumption|].
    split; [counts|]. split; assumption.
  - rewrite Hm. reflexivity.
Qed.

(** The same for a step without a counterpart. *)
Lemma sim_step : forall A B C D (F : list nat) pre0 pre (own1 : A -> list nat) kept1
    (own2 : C -> list nat) kept2 (m : M A) (y : B) (R1 : A -> B -> Prop)
    (k : A -> M C) (o : outcome D) (R2 : C -> D -> Prop),
  sim pre own1 kept1 m (Done y) R1 ->
  eqv pre0 (pre ++ F) -> eqv (kept1 ++ F) kept2 ->
  (forall x, R1 x y -> sim (own1 x ++ F) own2 kept2 (k x) o R2) ->
  sim pre0 own2 kept2 (follow m k) o R2.
Proof.
  intros A B C D F pre0 pre own1 kept1 own2 kept2 m y R1 k o R2 Hm Hp Hk HK.
  change o with (bind (Done y) (fun _ => o)).
  eapply (sim_follow _ _ _ _ F) with (R1 := fun x z => z = y /\ R1 x y); [|exact Hp|exact Hk|].
  - intros h Hh Hhas. specialize (Hm h Hh Hhas).
    destruct (m h) as [[h1 [x|e]]|f]; [|exact Hm|exact Hm].
    destruct Hm as ((z & E & Hr) & Hm). split; [|exact Hm]. injection E as <-. eauto.
  - intros x z [-> Hr]. apply HK, Hr.
Qed.

Lemma sim_unwind : forall A B l pre (own : A -> list nat) kept kept' (m : M A) (o : outcome B) R d,
  sim pre own kept m o R -> dok d l -> eqv kept (l ++ kept') ->
  sim pre own kept' (unwind d m) o R.
Proof.
  intros A B l pre own kept kept' m o R d Hm Hd He h Hh Hhas. unfold unwind.
  specialize (Hm h Hh Hhas). destruct (m h) as [[h1 [x|e]]|f]; cbn [bind].
  - exact Hm.
  - destruct Hm as (-> & K1 & B1 & (n & Hn & Hf) & L1).
    destruct (Hd h1 K1) as (h2 & E2 & K2 & B2 & A2).
    { intros a. specialize (B1 a). specialize (He a). specialize (Hhas a).
      rewrite occ_app in He. lia. }
    rewrite E2. cbn [bind]. split; [reflexivity|]. split; [assumption|]. split; [counts|].
    split; [exists n; split; [lia|assumption]|lia].
  - exact Hm.
Qed.

Lemma sim_conseq : forall A B pre pre' (own own' : A -> list nat) kept kept' (m : M A)
    (o : outcome B) (R R' : A -> B -> Prop),
  sim pre own kept m o R -> eqv pre pre' -> eqv kept kept' ->
  (forall x y, R x y -> R' x y /\ eqv (own x) (own' x)) -> sim pre' own' kept' m o R'.
Proof.
  intros A B pre pre' own own' kept kept' m o R R' Hm Hp Hk HR h Hh Hhas.
  specialize (Hm h Hh). assert (Hhas1 : has h pre) by counts. specialize (Hm Hhas1).
  destruct (m h) as [[h1 [x|e]]|f].
  - destruct Hm as ((y & E & Hr) & K1 & B1 & N1 & L1). destruct (HR x y Hr) as [Hr' Ho].
    split; [eauto|]. split; [assumption|]. split; [counts|auto].
  - destruct Hm as (-> & K1 & B1 & S1 & L1). split; [reflexivity|]. split; [assumption|].
    split; [counts|auto].
  - exact Hm.
Qed.

(** Adding blocks that are left alone. *)
Lemma sim_frame : forall A B F pre (own : A -> list nat) kept (m : M A) (o : outcome B) R,
  sim pre own kept m o R -> sim (pre ++ F) (fun x => own x ++ F) (kept ++ F) m o R.
Proof.
  intros A B F pre own kept m o R Hm h Hh Hhas. specialize (Hm h Hh).
  assert (Hhas1 : has h pre) by counts. specialize (Hm Hhas1).
  destruct (m h) as [[h1 [x|e]]|f].
  - destruct Hm as (Hy & K1 & B1 & N1 & L1).
    split; [assumption|]. split; [assumption|]. split; [counts|auto].
  - destruct Hm as (-> & K1 & B1 & S1 & L1). split; [reflexivity|]. split; [assumption|].
    split; [counts|auto].
  - exact Hm.
Qed.

(** Steps that do not throw. *)
Lemma sim_then_lift : forall A C D pre (own : C -> list nat) kept (o : outcome A)
    (k : A -> M C) (k' : A -> outcome D) R,
  (forall x, o = Done x -> sim pre own kept (k x) (k' x) R) ->
  sim pre own kept (follow (lift o) k) (bind o k') R.
Proof.
  intros A C D pre own kept [x|f] k k' R Hk h Hh Hhas; [|reflexivity]. cbn.
  apply (Hk x); auto.
Qed.

Lemma sim_then_touch : forall C D pre (own : C -> list nat) kept b (k : unit -> M C)
    (o : outcome D) R,
  0 < occ pre b -> sim pre own kept (k tt) o R ->
  sim pre own kept (follow (touch b) k) o R.
Proof.
  intros C D pre own kept b k o R Hb Hk h Hh Hhas. unfold follow, touch.
  assert (E : existsb (Nat.eqb b) (h_live h) = true).
  { apply existsb_exists. exists b. split; [|apply Nat.eqb_refl]. apply occ_in.
    specialize (Hhas b). lia. }
  rewrite E. cbn [bind]. apply (Hk h Hh Hhas).
Qed.

Lemma sim_then_run : forall C D F l pre (own : C -> list nat) kept d (k : unit -> M C)
    (o : outcome D) R,
  dok d l -> eqv pre (l ++ F) -> sim F own kept (k tt) o R ->
  sim pre own kept (follow (run d) k) o R.
Proof.
  intros C D F l pre own kept d k o R Hd He Hk h Hh Hhas. unfold follow, run.
  destruct (Hd h Hh) as (h1 & E1 & K1 & B1 & A1); [counts|]. rewrite E1. cbn [bind].
  assert (Hhas1 : has h1 F) by counts. specialize (Hk h1 K1 Hhas1).
  destruct (k tt h1) as [[h2 [x|e]]|f].
  - destruct Hk as (Hy & K2 & B2 & N2 & L2). split; [assumption|]. split; [assumption|].
    split; [counts|]. split; [|lia]. intros n Hn. apply N2. lia.
  - destruct Hk as (-> & K2 & B2 & (n & Hn & Hf) & L2). split; [reflexivity|]. split; [assumption|].
    split; [counts|]. split; [exists n; split; [lia|assumption]|lia].
  - exact Hk.
Qed.

(** ** Strings *)

Lemma occ_head : forall b l, 0 < occ (b :: l) b.
Proof. intros b l. cbn [occ]. rewrite one_refl. lia. Qed.

Lemma str_reserve_sim : forall s n,
  sim (own_str s) own_str (own_str s) (str_reserve fails what s n) (Done tt)
      (fun s' _ => str_text s' = str_text s /\ n + 1 <= str_cap s').
Proof.
  intros s n. unfold str_reserve. destruct (Nat.ltb_spec (str_cap s) (n + 1)) as [Hlt|Hge].
  - eapply (sim_step _ _ _ _ (own_str s)); [apply sim_new|counts|counts|]. intros b _.
    destruct s as [|b0 c t].
    + apply sim_ret; [cbn; split; [reflexivity|lia]|counts].
    + apply sim_then_touch; [cbn [app own_str occ]; rewrite one_refl; lia|].
      apply (sim_then_run _ _ [b] [b0]); [apply dok_release|counts|].
      apply sim_ret; [cbn; split; [reflexivity|lia]|counts].
  - apply sim_ret; [split; [reflexivity|lia]|counts].
Qed.

(** A String with a block and a text. *)
Definition holds (s : str) (t : bytes) : Prop := exists b c, s = SAt b c t.
Lemma holds_text : forall s t, holds s t -> str_text s = t.
Proof. intros s t (b & c & ->). reflexivity. Qed.

Lemma str_append_sim : forall s t,
  sim (own_str s) own_str (own_str s) (str_append fails what s t) (Done tt)
      (fun s' _ => holds s' (str_text s ++ t)).
Proof.
  intros s t. unfold str_append.
  eapply (sim_step _ _ _ _ []); [apply str_reserve_sim|counts|counts|].
  intros [|b c u] [Ht Hc]; [cbn in Hc; lia|].
  apply sim_then_touch; [cbn [app own_str occ]; rewrite one_refl; lia|].
  apply sim_ret; [|counts]. cbn [str_text] in *. rewrite Ht. exists b, c. reflexivity.
Qed.

Lemma str_make_sim : forall t,
  sim [] own_str [] (str_make fails what t) (Done tt) (fun s _ => holds s t).
Proof. intros t. apply (str_append_sim SNull t). Qed.

Lemma str_read_sim : forall s t C D pre (own : C -> list nat) kept k (o : outcome D) R F,
  holds s t -> eqv pre (own_str s ++ F) -> sim pre own kept (k t) o R ->
  sim pre own kept (follow (str_read s) k) o R.
Proof.
  intros s t C D pre own kept k o R F (b & c & ->) He Hk. unfold str_read.
  intros h Hh Hhas.
  assert (Hb : 0 < occ pre b).
  { specialize (He b). rewrite He. cbn [own_str app occ]. rewrite one_refl. lia. }
  pose proof (sim_then_touch _ _ pre own kept b (fun _ => k t) o R Hb Hk h Hh Hhas) as H.
  unfold follow, ret in *. destruct (touch b h) as [[h1 [[]|e]]|f]; cbn [bind] in *; exact H.
Qed.

Lemma str_copy_sim : forall s t, holds s t ->
  sim (own_str s) (fun x => own_str s ++ own_str x) (own_str s) (str_copy fails what s) (Done tt)
      (fun x _ => holds x t).
Proof.
  intros s t (b & c & ->). unfold str_copy. cbn [own_str].
  eapply (sim_step _ _ _ _ [b]); [apply sim_new|counts|counts|]. intros b' _.
  apply sim_then_touch; [cbn [app occ]; rewrite one_refl; lia|].
  apply sim_ret; [exists b', c; reflexivity|counts].
Qed.

Lemma b_sprintf_sim : forall t,
  sim [] own_str [] (b_sprintf fails what t) (Done tt) (fun s _ => holds s t).
Proof.
  intros t. unfold b_sprintf. eapply (sim_step _ _ _ _ []); [apply str_make_sim|counts|counts|].
  intros s Hs. eapply (sim_unwind _ _ (own_str s)); [|apply dok_str|].
  - eapply sim_conseq; [apply (str_append_sim s t)|counts|intros a; reflexivity|].
    intros x [] Hx. rewrite (holds_text _ _ Hs) in Hx. split; [exact Hx|counts].
  - counts.
Qed.

Lemma str_plus_sim : forall l lt r rt, holds l lt -> holds r rt ->
  sim (own_str l ++ own_str r) (fun x => own_str x ++ own_str r) (own_str r)
      (str_plus fails what l r) (Done tt) (fun s _ => holds s (lt ++ rt)).
Proof.
  intros l lt r rt Hl Hr. unfold str_plus.
  eapply (sim_step _ _ _ _ [] _ (own_str l ++ own_str r) (fun x => own_str x ++ own_str r)
            (own_str r)) with (R1 := fun x (_ : unit) => holds x (lt ++ rt)); [|counts|counts|].
  { eapply (sim_unwind _ _ (own_str l)) with (kept := own_str l ++ own_str r);
      [|apply dok_str|counts].
    apply (str_read_sim r rt) with (F := own_str l); [assumption|counts|].
    apply sim_frame. rewrite <- (holds_text _ _ Hl). apply str_append_sim. }
  intros x Hx.
  eapply (sim_step _ _ _ _ (own_str r) _ (own_str x) (fun y => own_str x ++ own_str y) [])
    with (R1 := fun y (_ : unit) => holds y (lt ++ rt)); [|counts|counts|].
  { eapply (sim_unwind _ _ (own_str x)); [apply (str_copy_sim x _ Hx)|apply dok_str|counts]. }
  intros y Hy. apply (sim_then_run _ _ (own_str y ++ own_str r) (own_str x));
    [apply dok_str|counts|].
  apply sim_ret; [assumption|counts].
Qed.

(** ** Vectors *)

Lemma vec_grow_sim : forall A (K : kind A) own v n, elem K own ->
  sim (own_vec own v) (own_vec own) (own_vec own v) (vec_grow fails what K v n) (Done tt)
      (fun v' _ => items v' = items v /\ exists b, v' = VAt b n (items v)).
Proof.
  intros A K own v n HK. unfold vec_grow.
  eapply (sim_step _ _ _ _ (own_vec own v)); [apply sim_new|counts|counts|]. intros b _.
  destruct v as [|b0 c l].
  - apply sim_ret; [cbn; eauto|counts].
  - apply sim_then_touch; [cbn [app own_vec occ]; rewrite one_refl; lia|].
    apply (sim_then_run _ _ (b :: b0 :: flat_map own l) []);
      [apply (dok_moved _ K own _ HK)|counts|].
    apply (sim_then_run _ _ (b :: flat_map own l) [b0]); [apply dok_release|counts|].
    apply sim_ret; [cbn; eauto|counts].
Qed.

Lemma own_vec_app : forall A (own : A -> list nat) b c c' l x,
  eqv (own_vec own (VAt b c (l ++ [x]))) (own_vec own (VAt b c' l) ++ own x).
Proof.
  intros A own b c c' l x. cbn [own_vec]. rewrite flat_map_app. cbn [flat_map]. counts.
Qed.

Lemma vec_push_sim : forall A (K : kind A) own v x, elem K own ->
  sim (own_vec own v ++ own x) (own_vec own) (own_vec own v) (vec_push fails what K v x) (Done tt)
      (fun v' _ => items v' = items v ++ [x]).
Proof.
  intros A K own v x HK. unfold vec_push.
  set (n := S (length (items v))).
  eapply (sim_step _ _ _ _ [] _ (own_vec own v ++ own x) (fun v' => own_vec own v' ++ own x)
            (own_vec own v)) with
    (R1 := fun v' (_ : unit) => items v' = items v /\ n <= vec_cap v'); [|counts|counts|].
  - eapply (sim_unwind _ _ (own x)); [|apply (e_destroy _ _ HK)|].
    + eapply sim_conseq with (pre := own_vec own v ++ own x)
        (own := fun v' => own_vec own v' ++ own x) (kept := own_vec own v ++ own x);
        [apply sim_frame| | |].
      * instantiate (1 := fun v' (_ : unit) => items v' = items v /\ n <= vec_cap v').
        destruct (Nat.ltb_spec (vec_cap v) n) as [Hlt|Hge].
        -- eapply sim_conseq; [apply (vec_grow_sim _ K own _ _ HK)|counts|counts|].
           intros v' [] (Hi & b & ->). split; [|counts]. split; [exact Hi|]. cbn [vec_cap].
           destruct (Nat.ltb_spec (length (items v) * 3 / 2) n); lia.
        -- apply sim_ret; [split; [reflexivity|assumption]|counts].
      * counts.
      * intros a. reflexivity.
      * intros v' [] Hv. split; [exact Hv|counts].
    + counts.
  - intros [|b c l] [Hi Hc]; [cbn in Hc; unfold n in Hc; lia|].
    cbn [vec_cap items] in *. replace (n <=? c) with true by (symmetry; apply Nat.leb_le; lia).
    change (Done tt) with (_ <- assert_ true ;; Done tt).
    apply sim_then_lift. intros [] _.
    apply sim_then_touch; [cbn [app own_vec occ]; rewrite one_refl; lia|].
    apply (sim_then_run _ _ (own_vec own (VAt b c l) ++ own x) []).
    { rewrite <- (e_moved _ _ HK x). apply (e_destroy _ _ HK). }
    { counts. }
    apply sim_ret; [cbn [items]; now rewrite Hi|].
    intros a. rewrite (own_vec_app _ own b c c l x a). reflexivity.
Qed.

Lemma vec_at_sim : forall A (own : A -> list nat) v i C D pre F (own2 : C -> list nat) kept k
    (k' : A -> outcome D) R,
  eqv pre (own_vec own v ++ F) ->
  (forall x, nth_error (items v) i = Some x -> sim pre own2 kept (k x) (k' x) R) ->
  sim pre own2 kept (follow (vec_at v i) k)
      (bind (match nth_error (items v) i with Some x => Done x | None => Fault OutOfBounds end) k') R.
Proof.
  intros A own v i C D pre F own2 kept k k' R He Hk. unfold vec_at.
  destruct v as [|b c l].
  { intros h Hh Hhas. destruct i; reflexivity. }
  cbn [items] in *. destruct (nth_error l i) as [x|] eqn:E.
  - cbn [bind]. intros h Hh Hhas.
    assert (Hb : 0 < occ pre b).
    { specialize (He b). rewrite He. cbn [own_vec app occ]. rewrite one_refl. lia. }
    pose proof (sim_then_touch _ _ pre own2 kept b (fun _ => k x) (k' x) R Hb (Hk x eq_refl) h Hh Hhas) as H.
    unfold follow, ret in *. destruct (touch b h) as [[h1 [[]|e]]|f]; cbn [bind] in *; exact H.
  - intros h Hh Hhas. reflexivity.
Qed.
End Sim.
