(** C92: the commands of examples/flags. *)
From Coq Require Import Ascii String NArith ZArith Bool PeanoNat Lia Permutation List.
Import ListNotations.
From Verif Require Import Util Base LexerSpec StringConv StringConvSpec StringConvProofs SerializerSpec Serializer
  SerializerProofs Lexer LexerMeta LexerProofs LexerMore P_Lexer P_StringConv P_Serializer UMap Exec ExecSpec ExecProofs P_Exec
  Enums EnumsSpec EnumsProofs EnumsRead EnumsFlags P_Enums NamedExample NamedExampleSpec NamedExampleProofs
  ExampleSession ExampleSpec ExampleProofs ExampleMore FlagsExample FlagsExampleSpec.

Local Notation length := List.length.

Lemma same_enum n : flags_enum n = drawing n. Proof. reflexivity. Qed.
Lemma drawing_ok p n : no_nul n -> declarable p (drawing n).
Proof.
  intros N. destruct (EntityDebugDrawFlags_ok p) as (_ & A & B). split; [exact N|]. split; [exact A|exact B].
Qed.

(** ** Drawing *)

Lemma bit_test v k : (0 <= k)%Z -> (Z.land v (2 ^ k) =? 2 ^ k)%Z = Z.testbit v k.
Proof.
  intros Hk. destruct (Z.testbit v k) eqn:B.
  - apply Z.eqb_eq. apply Z.bits_inj'. intros j Hj. rewrite Z.land_spec, Z.pow2_bits_eqb by exact Hk.
    destruct (Z.eqb_spec k j) as [<-|]; [now rewrite B|apply andb_false_r].
  - apply Z.eqb_neq. intros E. assert (L := land_pow2 v k Hk). rewrite B, E in L.
    apply negb_false_iff, Z.eqb_eq in L. assert (0 < 2 ^ k)%Z by (apply Z.pow_pos_nonneg; lia). lia.
Qed.
Definition drawn_text (v : Z) (l : list (Z * bytes)) : bytes :=
  List.concat (map (fun kt => if Z.testbit v (fst kt) then snd kt ++ [nl] else []) l).
Lemma drawn_is v l : forall t, drawn v l t <-> t = drawn_text v l.
Proof.
  induction l as [|[k u] l IH]; intros t; [|change (drawn_text v ((k, u) :: l)) with ((if Z.testbit v k then u ++ [nl] else []) ++ drawn_text v l)].
  - split; [now inversion 1|intros ->; constructor].
  - split.
    + inversion 1 as [|? ? ? ? B D|? ? ? ? B D]; subst; apply IH in D; subst; rewrite B; [now rewrite <- app_assoc|reflexivity].
    + intros ->. destruct (Z.testbit v k) eqn:B; [|apply drawn_no; [exact B|now apply IH]].
      rewrite <- app_assoc. cbn [app]. apply drawn_yes; [exact B|now apply IH].
Qed.

Section Flags.
Variables (p : platform) (nm : naming) (flags_name : bytes).
Variables sg catching : bool.
Variable d : nat.
Hypothesis Nf : no_nul flags_name.

Local Notation code := (code p nm flags_name).
Local Notation table := (table p flags_name).
Local Notation acts := (acts p flags_name).
Local Notation good := (fun _ : Z => True).
Local Notation world_of := (fun z : Z => z).
Local Notation serves := (serves sg commands good world_of).
Local Notation run := (run_prog sg (nested_exec code sg catching d)).
Local Notation exec := (exec_input code sg catching d).
Local Notation E := (drawing flags_name).
Local Notation De := (drawing_ok p flags_name Nf).
Local Notation Ser := (enum_serializer p nm E).
Local Notation items := (items p flags_name).

Lemma Fi : implements Ser (enum_kind p E).
Proof. now apply enum_implements; [apply De|]. Qed.
Lemma word_value s (x : Z) : from_value Ser [s] = Value x <-> read_as p E s x.
Proof.
  split.
  - intros H. apply (proj1 Fi) in H. destruct H as (s' & [= <-] & W). exact W.
  - intros W. apply (proj1 Fi). now exists s.
Qed.
Lemma items_value v (xs : list Z) : from_value (vector_serializer Ser) v = Value xs <-> items v xs.
Proof.
  rewrite C17_vector_accept_iff. unfold FlagsExampleSpec.items.
  split; intros H; induction H as [|s z v xs W H IH]; constructor; try exact IH; now apply word_value.
Qed.
Lemma enum_bad s c : no_nul s -> from_value Ser [s] = Error c -> c <> [] /\ no_nul c.
Proof.
  intros N X. cbn [from_value enum_serializer] in X. destruct (fromString p nm E [s]) as [r|f] eqn:Y.
  - subst r. apply (C75_read_error_iff p nm E s c De N) in Y. destruct Y as (_ & l & names & L & J & Ce).
    assert (Nv : value_no_nul [s]) by now intros ? [<-|[]].
    refine (conversion_error_text _ _ _ _ _ Nv _ Ce); [exact Nf|].
    apply no_nul_app; [now apply no_nul_lit|]. apply no_nul_app; [|now apply no_nul_lit].
    refine (joined_no_nul _ _ _ _ _ J); [now apply no_nul_lit|]. intros q Q. apply in_map_iff in Q. destruct Q as ([v m] & <- & Q).
    apply L in Q. destruct Q as [Q _]. apply first_name_In in Q. cbn in Q. unfold quoted. cbn [snd].
    repeat (destruct Q as [Q|Q]; [injection Q as <- <-; vm_compute; intuition discriminate|]). destruct Q.
  - exfalso. assert (F : exists f, fromString p nm E [s] = Fault f) by now exists f.
    apply (C75_read_fault_iff p nm E s De) in F. destruct F as (x & _ & C). apply C. now left.
Qed.
Lemma flags_fits : fits (vector_serializer Ser) (flags_param p flags_name).
Proof.
  split; cbn [p_ok p_bad flags_param p_type].
  - intros v. split; intros (x & H); exists x; now apply items_value.
  - intros v e N.
    assert (Ns : forall s, In s v -> value_no_nul [s]) by (intros s J s' [<-|[]]; now apply N).
    assert (Er : forall s e0, In s v -> from_value Ser [s] = Error e0 -> e0 <> [] /\ no_nul e0).
    { intros s e0 J. apply enum_bad. now apply N. }
    refine (iff_trans (C17_vector_error_iff Ser v e Nf N Er) _). split.
    + intros (pre & s & post & c & -> & Hp & Es & Ce).
      assert (X : exists xs, items pre xs).
      { clear - Hp Nf. induction pre as [|x pre IH]; [exists []; constructor|]. destruct IH as (zs & H); [intros s J; apply Hp; now right|].
        destruct (Hp x (or_introl eq_refl)) as (z & W). exists (z :: zs). constructor; [now apply word_value|exact H]. }
      destruct X as (zs & Hz). exists pre, s, post, zs, c. split; [reflexivity|]. split; [exact Hz|]. split; [|exact Ce].
      apply (proj2 Fi); [|exact Es]. apply Ns. apply in_or_app. right. now left.
    + intros (pre & s & post & zs & c & -> & Hz & Cm & Ce). exists pre, s, post, c. split; [reflexivity|]. split; [|split; [|exact Ce]].
      * clear - Hz Nf. induction Hz as [|x z pre zs W H IH]; [intros ? []|]. intros s' [<-|J]; [exists z; now apply word_value|now apply IH].
      * apply (proj2 Fi) in Cm; [exact Cm|]. apply Ns. apply in_or_app. right. now left.
Qed.

Lemma agreed : Forall2 (agree code) commands table.
Proof.
  assert (A := flags_fits).
  repeat apply Forall2_cons; try apply Forall2_nil; (split; [reflexivity|]); (split; [discriminate|]);
    (split; [cbn; repeat constructor; cbn; intuition discriminate|]); cbn [snd];
    repeat first [assumption|apply Forall2_cons|apply Forall2_nil].
Qed.
Lemma items_one v (xs : list Z) : items v xs -> converts [vector_serializer Ser] [v] ((xs, tt) : args_of [vector_serializer Ser]).
Proof. intros H. apply converts_cons; [now apply items_value|constructor]. Qed.

Lemma print_is v t : flags_print E v t <-> t = flags_string p flags_name v.
Proof.
  rewrite <- (C75_flags_print_iff p E v t De). unfold flags_string. change (flags_enum flags_name) with E.
  destruct (flags_print_ok p E De v) as (u & -> & _). split; [now intros [= ->]|now intros ->].
Qed.

(** ** The commands *)

Local Notation taken := (taken code).
Lemma only_one (f : fn) : taken [f] f.
Proof. exists [], []. split; [reflexivity|intros ? []]. Qed.
Lemma the_first (f g : fn) : taken [f; g] f.
Proof. exists [], [g]. split; [reflexivity|intros ? []]. Qed.
Lemma the_second (f g : fn) : length (f_params (code f)) <> length (f_params (code g)) -> taken [f; g] g.
Proof. intros H. exists [f], []. split; [reflexivity|]. now intros ? [<-|[]]. Qed.

Lemma when_run sid s inp f k t c out : (0 <= k)%Z -> f = (2 ^ k)%Z ->
  run sid s (ctx inp [] out) (when_set f t c) =
  run sid s (ctx inp [] (out ++ drawn_text (s_world s) [(k, t)])) c.
Proof.
  intros K ->. unfold when_set, flags_and, drawn_text. cbn [run_prog map List.concat fst snd]. rewrite (bit_test _ k K).
  destruct (Z.testbit (s_world s) k); cbn [run_prog]; [now rewrite ctx_line, app_nil_r|now rewrite !app_nil_r].
Qed.
Lemma draw_run sid s inp : run sid s (ctx inp [] []) draw = Done (s, ctx inp [] (drawn_text (s_world s) parts), inl tt).
Proof.
  unfold draw. rewrite (when_run _ _ _ 1 0), (when_run _ _ _ 2 1), (when_run _ _ _ 4 2), (when_run _ _ _ 8 3) by (lia || reflexivity).
  cbn [run_prog]. unfold drawn_text, parts. cbn [map List.concat fst snd]. now rewrite !app_nil_r, <- !app_assoc.
Qed.

Ltac acting fs f vs scn out r txt :=
  match goal with R : serves ?sc0 ?s, nd : list (bytes * list bytes) |- exists inp s', exec_input _ _ _ _ _ (Input ?n ?pos _) = _ /\ _ =>
    apply (run_acts code sg catching d commands good world_of sc0 s n fs f pos nd vs scn [] out r txt R);
      try discriminate; [cbn; tauto|first [apply only_one|apply the_first|apply the_second; discriminate]|..]
  end.
Ltac steps := intros sid _; cbn [FlagsExample.code f_body fst snd run_prog s_world set_world].

Lemma exec_acts sc s name pos nd sc' es ret out : serves sc s -> acts sc name pos nd sc' es ret out ->
  exists inp s', exec s (Input name pos nd) = Done (s', inl (Result inp es ret out)) /\ serves sc' s'.
Proof.
  intros R A. assert (Hw := proj1 (proj2 (proj2 R))). cbn beta in Hw.
  assert (Kp : set_world s sc = s) by (rewrite <- Hw; now destruct s).
  destruct A as [nd t P|nd w xs r t V U P|nd t D].
  - apply print_is in P. acting [FGet; FSet] FGet tt sc (@nil byte) t (Some t); [constructor|exact I| |reflexivity].
    steps. unfold get. cbn [run_prog]. now rewrite Hw, Kp, <- P.
  - apply print_is in P. assert (r = combined xs) by (apply (union_det xs); [exact U|apply combined_union]). subst r.
    acting [FGet; FSet] FSet (xs, tt) (combined xs) (@nil byte) t (Some t); [exact (items_one w xs V)|exact I| |reflexivity].
    steps. unfold set. cbn [run_prog s_world set_world]. now rewrite <- P.
  - apply drawn_is in D. acting [FDraw] FDraw tt sc t tt (@None bytes); [constructor|exact I| |reflexivity].
    steps. now rewrite draw_run, Hw, Kp, <- D.
Qed.

Lemma accepted_nil pos : accepted [] pos -> pos = [].
Proof. intros H. now inversion H. Qed.
Lemma accepted_cons P Ps pos : accepted (P :: Ps) pos -> exists v x vs, pos = v :: vs /\ p_ok P v x /\ accepted Ps vs.
Proof. intros H. inversion H as [|? v ? vs (x & O) H']; subst. now exists v, x, vs. Qed.

Lemma acts_total sc name pos nd overloads Ps : In (name, overloads) table -> In Ps overloads -> accepted Ps pos ->
  exists sc' es ret out, acts sc name pos nd sc' es ret out.
Proof.
  intros J K A. cbn in J. repeat (destruct J as [J|J]; [injection J as <- <-|]); [..|destruct J];
    cbn in K; repeat (destruct K as [<-|K]); try destruct K;
    repeat (let v := fresh "v" in let x := fresh "x" in let V := fresh "V" in
            apply accepted_cons in A; destruct A as (v & x & ? & -> & V & A); cbn in x, V); apply accepted_nil in A; subst.
  - eexists _, _, _, _. apply acts_get. now apply print_is.
  - eexists _, _, _, _. eapply acts_set; [exact V|apply combined_union|now apply print_is].
  - eexists _, _, _, _. apply acts_draw. now apply drawn_is.
Qed.

Lemma is_implemented : implemented code (fun _ => None) sg catching d commands table acts goes_wrong good world_of.
Proof.
  split.
  - reflexivity.
  - exact agreed.
  - cbn. repeat constructor; cbn; intuition discriminate.
  - intros. now apply exec_acts with (sc := sc).
  - intros. contradiction.
  - intros. left. now apply acts_total with (overloads := overloads) (Ps := Ps).
Qed.
End Flags.

Lemma first_is v : first_flags v <-> v = 9%Z.
Proof.
  assert (H : first_flags 9).
  { intros k. split.
    - intros B. destruct (Z_lt_dec k 0) as [L|L]; [rewrite Z.testbit_neg_r in B by exact L; discriminate B|].
      destruct (Z_lt_dec k 4) as [M|M]; [|rewrite Z.bits_above_log2 in B; [discriminate B|lia|change (Z.log2 9) with 3%Z; lia]].
      assert (K : k = 0%Z \/ k = 1%Z \/ k = 2%Z \/ k = 3%Z) by lia. destruct K as [->|[->|[->| ->]]]; auto; discriminate B.
    - intros [-> | ->]; reflexivity. }
  split; [|now intros ->]. intros K. apply Z.bits_inj'. intros k _. specialize (H k). specialize (K k).
  destruct (Z.testbit v k), (Z.testbit 9 k); try reflexivity; exfalso; intuition discriminate.
Qed.

(** * C92 *)
Section Theorems.
(** The platform, the names of integer types and of the enumeration, whether char is signed for the
    lexer, whether exceptions are caught, and how deep commands may nest. *)
Variables (p : platform) (nm : naming) (flags_name : bytes).
Variables sg catching : bool.
Variable d : nat.
Hypothesis Nf : no_nul flags_name.

Local Notation table := (table p flags_name).
Local Notation acts := (acts p flags_name).
Local Notation C := (cfg_classes sg default_cfg).
Local Notation dialogue := (dialogue table acts C).
Local Notation stuck := (stuck table acts C).
Local Notation session := (FlagsExample.run p nm flags_name sg catching d).
Local Notation I := (is_implemented p nm flags_name sg catching d Nf).
Local Notation items := (items p flags_name).
Local Notation E := (drawing flags_name).

Lemma begun v : first_flags v -> exists s, start sg = Done s /\ serves sg commands (fun _ : Z => True) (fun z => z) v s.
Proof. intros F. apply first_is in F. subst v. exact (started _ _ sg catching d _ _ _ _ _ _ I 9%Z Logic.I). Qed.

Lemma no_disaster sc lines f : ~ disaster table acts goes_wrong C sc lines f.
Proof. intros D. induction D as [? ? ? ? (n & pos & nd & _ & [])|]; assumption. Qed.

Theorem C92_session_iff : forall lines v0 v rs, first_flags v0 -> Forall no_nul lines ->
  (dialogue v0 lines v rs <->
   exists s s' xs, start sg = Done s /\ session s lines = Done (s', xs) /\ map reply xs = rs /\ s_world s' = v).
Proof.
  intros lines v0 v rs F N. destruct (begun v0 F) as (s & X & R).
  destruct (session_iff _ _ sg catching d _ _ _ _ _ _ I v0 s lines v rs R N) as [A B]. split.
  - intros D. destruct A as (s' & xs & H); [now exists v|]. now exists s, s', xs.
  - intros (s0 & s' & xs & E0 & H). rewrite X in E0. injection E0 as <-. destruct B as (v' & D & Y); [now exists s', xs|].
    now subst v'.
Qed.

(** No undefined behaviour but that of C01, and no exceptions. *)
Theorem C92_no_fault : forall lines v0 s, first_flags v0 -> Forall no_nul lines -> start sg = Done s ->
  ((exists f, session s lines = Fault f) <-> stuck v0 lines).
Proof.
  intros lines v0 s F N X. destruct (begun v0 F) as (s0 & E0 & R). rewrite X in E0. injection E0 as <-. split.
  - intros (f & H). destruct (fault_iff _ _ sg catching d _ _ _ _ _ _ I v0 s lines f R N) as [_ B].
    destruct (B H) as [D|D]; [elim (no_disaster _ _ _ D)|exact D].
  - intros D. exact (session_stuck _ _ sg catching d _ _ _ _ _ _ I v0 lines s D N R).
Qed.

Theorem C92_described : forall lines v0, first_flags v0 -> Forall no_nul lines ->
  ((exists v rs, dialogue v0 lines v rs) \/ stuck v0 lines) /\
  (forall v rs v' rs', dialogue v0 lines v rs -> dialogue v0 lines v' rs' -> rs = rs' /\ v = v').
Proof.
  intros lines v0 F N. destruct (begun v0 F) as (s & X & R). split.
  - destruct (ExampleProofs.total _ _ sg catching d _ _ _ _ _ _ I lines v0 s R N) as [H|[(f & H)|H]];
      [now left|elim (no_disaster _ _ _ H)|now right].
  - intros v rs v' rs' H H'. exact (proj1 (not_both _ _ sg catching d _ _ _ _ _ _ I v0 s lines R N) _ _ _ _ H H').
Qed.

(** ** Setting *)

Lemma items_det w xs xs' : items w xs -> items w xs' -> xs = xs'.
Proof. intros H H'. apply (items_value p nm flags_name Nf) in H, H'. congruence. Qed.

Lemma set_inv v w nd r es ret out : acts v (lit "entity.flags") [w] nd r es ret out ->
  exists xs t, items w xs /\ union xs r /\ flags_print E r t /\ es = [] /\ ret = Some t /\ out = [].
Proof. intros A. inversion A; subst. eauto 10. Qed.

(** Neither the previous value, nor the order of the items, nor repetitions matter. *)
Theorem C92_set_same : forall v v' w w' nd nd' r es ret out, (forall s, In s w <-> In s w') ->
  acts v (lit "entity.flags") [w] nd r es ret out -> acts v' (lit "entity.flags") [w'] nd' r es ret out.
Proof.
  intros v v' w w' nd nd' r es ret out S A. destruct (set_inv _ _ _ _ _ _ _ A) as (xs & t & H & U & P & -> & -> & ->).
  assert (X : exists xs', items w' xs').
  { assert (K : forall s, In s w' -> exists x, read_as p E s x).
    { intros s J. apply S in J. clear - H J. induction H as [|a x w xs Ra H IH]; [destruct J|]. destruct J as [<-|J]; [now exists x|now apply IH]. }
    clear - K. induction w' as [|a w IH]; [exists []; constructor|]. destruct IH as (l & L); [intros s J; apply K; now right|].
    destruct (K a (or_introl eq_refl)) as (x & Ra). exists (x :: l). now constructor. }
  destruct X as (xs' & H'). eapply acts_set; [exact H'| |exact P].
  assert (Pt : forall u ys, items u ys -> forall x, In x ys <-> exists s, In s u /\ read_as p E s x).
  { clear - nm Nf. intros u ys H. induction H as [|a y u ys Ra H IH]; intros x; [split; [intros []|intros (? & [] & _)]|]. split.
    - intros [<-|J]; [exists a; split; [now left|exact Ra]|]. apply IH in J. destruct J as (s & J & Rs). exists s. split; [now right|exact Rs].
    - intros (s & [<-|J] & Rs); [left; exact (read_as_det p nm E _ _ _ Ra Rs)|right; apply IH; now exists s]. }
  intros k. split.
  - intros B. apply U in B. destruct B as (x & J & B). exists x. split; [|exact B]. apply (Pt w' xs' H').
    apply (Pt w xs H) in J. destruct J as (s & J & Rs). exists s. split; [now apply S|exact Rs].
  - intros (x & J & B). apply U. exists x. split; [|exact B]. apply (Pt w xs H).
    apply (Pt w' xs' H') in J. destruct J as (s & J & Rs). exists s. split; [now apply S|exact Rs].
Qed.

Lemma same_identifier s m : same_word s m -> identifier m -> identifier s.
Proof.
  intros S (c & r & -> & L & D). inversion S as [|a ? s' ? A S']; subst. exists a, s'. split; [reflexivity|].
  assert (K : forall x y, same_letter x y -> letter y -> letter x).
  { clear. intros x y [z|u z B Q|u z B Q] L; [exact L|left; lia|right; left; lia]. }
  split; [exact (K _ _ A L)|]. clear - S' D K. induction S' as [|x y s t X S IH]; constructor; inversion D as [|? ? [H|H] D']; subst.
  - left. exact (K _ _ X H).
  - inversion X; subst; [now right|left; left; lia|left; right; left; lia].
  - now apply IH.
  - now apply IH.
Qed.
Lemma same_length s m : same_word s m -> length s = length m.
Proof. intros H. induction H; cbn; congruence. Qed.

Lemma flag_name k m : In (k, m) bits_named -> first_name E (2 ^ k) m.
Proof.
  intros J. cbn in J. repeat (destruct J as [J|J]; [injection J as <- <-|]); [..|destruct J].
  - exists [], (tl (e_decl E)). split; [reflexivity|intros ? []].
  - exists (firstn 1 (e_decl E)), (skipn 2 (e_decl E)). split; [reflexivity|]. cbn. intuition congruence.
  - exists (firstn 2 (e_decl E)), (skipn 3 (e_decl E)). split; [reflexivity|]. cbn. intuition congruence.
  - exists (firstn 3 (e_decl E)), (skipn 4 (e_decl E)). split; [reflexivity|]. cbn. intuition congruence.
Qed.
Lemma declared m w : In (m, w) (e_decl E) -> exists k, In (k, m) bits_named /\ w = (2 ^ k)%Z /\ (0 <= k <= 3)%Z.
Proof.
  intros J. cbn [e_decl drawing] in J. apply in_map_iff in J. destruct J as ([k n] & Q & J). cbn [fst snd] in Q. injection Q as -> <-.
  exists k. split; [exact J|]. split; [reflexivity|]. cbn in J. repeat (destruct J as [J|J]; [injection J as <- _; lia|]). destruct J.
Qed.

Lemma flag_read k m : In (k, m) bits_named -> forall s, same_word s m -> read_as p E s (2 ^ k).
Proof.
  intros J s Sm. assert (Fn := flag_name k m J). assert (In_ := first_name_In _ _ _ Fn).
  right. split.
  - intros (z & N). revert N. apply identifier_no_integer.
    exact (same_identifier s m Sm (proj1 (declared_ok p E (drawing_ok p flags_name Nf) _ _ Fn))).
  - split.
    + exists m. split; [|exact Sm]. split; [exact Fn|]. destruct (declared _ _ In_) as (k' & _ & -> & R).
      assert (K : k' = 0%Z \/ k' = 1%Z \/ k' = 2%Z \/ k' = 3%Z) by lia. destruct K as [->|[->|[->| ->]]]; cbn; lia.
    + intros w m' [Vw _] Sw. apply first_name_In, declared in Vw. destruct Vw as (k' & J' & -> & _).
      apply same_length in Sm. apply same_length in Sw. rewrite Sm in Sw. clear - J J' Sw. cbn in J, J'.
      repeat (destruct J as [J|J]; [injection J as <- <-|]); [..|destruct J];
        repeat (destruct J' as [J'|J']; [injection J' as <- <-; try discriminate Sw; lia|]); destruct J'.
Qed.

Lemma small_bits l r : incl l bits_named -> (forall k, Z.testbit r k = true <-> In k (map fst l)) ->
  r = sum (map (fun f => 2 ^ fst f)%Z (filter (fun kn => Z.testbit r (fst kn)) bits_named)).
Proof.
  intros S B. apply Z.bits_inj'. intros k Hk.
  assert (K : Z.testbit r k = true -> (k = 0 \/ k = 1 \/ k = 2 \/ k = 3)%Z).
  { intros H. apply B, in_map_iff in H. destruct H as ([j m] & <- & H). apply S in H. cbn in H. cbn [fst].
    repeat (destruct H as [H|H]; [injection H as <- _; tauto|]). destruct H. }
  clear B S. unfold bits_named. cbn [filter fst].
  destruct (Z.testbit r 0) eqn:B0, (Z.testbit r 1) eqn:B1, (Z.testbit r 2) eqn:B2, (Z.testbit r 3) eqn:B3; cbn [map fst sum fold_right];
  match goal with |- _ = Z.testbit ?z k => let y := eval vm_compute in z in change z with y end;
  (destruct (Z_lt_dec k 4) as [M|M];
   [assert (Q : (k = 0 \/ k = 1 \/ k = 2 \/ k = 3)%Z) by lia; destruct Q as [->|[->|[->| ->]]]; assumption|
    transitivity false;
    [destruct (Z.testbit r k) eqn:Bk; [exfalso; specialize (K eq_refl); lia|reflexivity]|
     symmetry; first [apply Z.testbit_0_l|apply Z.bits_above_log2; [lia|vm_compute Z.log2; lia]]]]).
Qed.

Lemma shown_flags r t : r = sum (map (fun f => 2 ^ fst f)%Z (filter (fun kn => Z.testbit r (fst kn)) bits_named)) ->
  joined (lit "|") (map snd (filter (fun kn => Z.testbit r (fst kn)) bits_named)) t -> flags_print E r t.
Proof.
  intros Q J. set (l := filter (fun kn => Z.testbit r (fst kn)) bits_named) in *.
  assert (F : flags_of E r l).
  { split.
    - subst l. unfold bits_named. cbn [filter fst].
      destruct (Z.testbit r 0), (Z.testbit r 1), (Z.testbit r 2), (Z.testbit r 3); cbn [map fst]; repeat constructor; lia.
    - intros k m. subst l. rewrite filter_In. cbn [fst]. split; intros [A B]; (split; [|exact B]).
      + split; [|now apply flag_name]. cbn in A. repeat (destruct A as [A|A]; [injection A as <- _; lia|]). destruct A.
      + destruct A as [Hk A]. apply first_name_In, declared in A. destruct A as (k' & A & Ek & R).
        apply Z.pow_inj_r in Ek; [now subst k'|lia|exact Hk|lia]. }
  clearbody l. destruct l as [|f l0].
  - inversion J. subst t. eapply flags_unnamed; [exact F|now left].
  - eapply flags_named; [exact F|discriminate|exact Q|exact J].
Qed.

(** Setting flags by their names, in any case, sets exactly these, shows them in the order of their
    bits, and makes entity.draw draw exactly these. *)
Theorem C92_set_draw : forall v w nd (l : list (Z * bytes)), incl l bits_named -> Forall2 (fun s kn => same_word s (snd kn)) w l ->
  exists r t, acts v (lit "entity.flags") [w] nd r [] (Some t) [] /\
    (forall k, Z.testbit r k = true <-> In k (map fst l)) /\
    joined (lit "|") (map snd (filter (fun kn => Z.testbit r (fst kn)) bits_named)) t /\
    exists lines, (forall nd', acts r (lit "entity.draw") [] nd' r [] None (List.concat (map (fun x => x ++ [nl]) lines))) /\
      forall x, In x lines <-> exists k n, In (k, n) l /\ In (k, x) parts.
Proof.
  intros v w nd l S H. set (xs := map (fun kn : Z * bytes => (2 ^ fst kn)%Z) l).
  assert (V : items w xs).
  { subst xs. clear - nm Nf S H. induction H as [|s [k m] w l A H IH]; cbn [map]; constructor.
    - apply (flag_read k m); [apply S; now left|exact A].
    - apply IH. intros x J. apply S. now right. }
  set (r := combined xs). assert (U := combined_union xs). fold r in U.
  assert (B : forall k, Z.testbit r k = true <-> In k (map fst l)).
  { intros k. rewrite (U k). subst xs. clear - S. split.
    - intros (x & J & T). apply in_map_iff in J. destruct J as ([j m] & <- & J). cbn [fst] in T.
      assert (0 <= j)%Z by (apply S in J; cbn in J; repeat (destruct J as [J|J]; [injection J as <- _; lia|]); destruct J).
      rewrite Z.pow2_bits_eqb in T by assumption. apply Z.eqb_eq in T. subst j. apply in_map_iff. now exists (k, m).
    - intros J. apply in_map_iff in J. destruct J as ([j m] & Q & J). cbn [fst] in Q. subst j. exists (2 ^ k)%Z. split.
      + apply in_map_iff. now exists (k, m).
      + assert (0 <= k)%Z by (apply S in J; cbn in J; repeat (destruct J as [J|J]; [injection J as <- _; lia|]); destruct J).
        rewrite Z.pow2_bits_eqb by assumption. apply Z.eqb_refl. }
  assert (Q := small_bits l r S B).
  assert (Jx : forall ss : list bytes, exists t, joined (lit "|") ss t).
  { clear. induction ss as [|s [|s' ss] IH]; [exists []; constructor|exists s; constructor|]. destruct IH as (t & IH).
    eexists. apply joined_cons; [discriminate|exact IH]. }
  destruct (Jx (map snd (filter (fun kn => Z.testbit r (fst kn)) bits_named))) as (t & J).
  exists r, t. split; [eapply acts_set; [exact V|exact U|now apply shown_flags]|]. split; [exact B|]. split; [exact J|].
  exists (map snd (filter (fun kt => Z.testbit r (fst kt)) parts)). split.
  - intros nd'. apply acts_draw, drawn_is. unfold drawn_text. induction parts as [|[k x] l0 IH]; cbn [map filter List.concat fst snd]; [reflexivity|].
    destruct (Z.testbit r k); cbn [map List.concat snd app]; now rewrite IH.
  - intros x. rewrite in_map_iff. split.
    + intros ([k y] & <- & K). apply filter_In in K. cbn [fst snd] in *. destruct K as [K T]. apply B, in_map_iff in T.
      destruct T as ([j m] & <- & T). exists j, m. now split.
    + intros (k & n & K & P). exists (k, x). split; [reflexivity|]. apply filter_In. split; [exact P|]. cbn [fst]. apply B.
      apply in_map_iff. now exists (k, n).
Qed.

(** A number sets bits that have no name.  They are neither shown nor drawn: "the answer tells which
    flags are set" is false. *)
Theorem C92_shown_refuted : forall v nd, exists r,
  acts v (lit "entity.flags") [[lit "17"]] nd r [] (Some []) [] /\ Z.testbit r 0 = true /\
  acts r (lit "entity.draw") [] [] r [] None (lit "Drawing bounding box" ++ [nl]).
Proof.
  intros v nd. exists 17%Z. split; [|split; [reflexivity|apply acts_draw, drawn_is; reflexivity]].
  apply (acts_set p flags_name v nd [lit "17"] [17%Z]).
  - apply (items_value p nm flags_name Nf). destruct p as [[|] [|]], nm as [[|] [|]]; vm_compute; reflexivity.
  - apply (combined_union [17%Z]).
  - apply (print_is p flags_name Nf). destruct p as [[|] [|]]; vm_compute; reflexivity.
Qed.
End Theorems.

(** ** Examples *)

Definition ex_flags : bytes := lit "{anonymous}::EntityDebugDrawFlags".
Definition ex_session (l : list string) : outcome (list (list bytes * option bytes * bytes) * Z) :=
  s <- start true ;;
  r <- FlagsExample.run ex_p ex_nm ex_flags true true 3 s (map lit l) ;;
  Done (map reply (snd r), s_world (fst r)).
Definition ex_draw (l : list string) : list bytes * option bytes * bytes :=
  ([], None, List.concat (map (fun x => lit x ++ [nl]) l)).
Definition ex_shows (t : string) : list bytes * option bytes * bytes := ([], Some (lit t), []).

(** The commands of FlagsExample.cpp:88-107. *)
Definition ex_commands : list string :=
  ["entity.flags"; "entity.draw"; "entity.flags DrawOrigin|DrawWireframe"; "entity.draw"; "entity.flags DrawOrigin"; "entity.draw";
   "entity.flags DrawOrigin,DrawWireframe"; "entity.flags (DrawOrigin DrawWireframe)"; "entity.flags (DrawOrigin, DrawWireframe)";
   "entity.flags DrawName|DrawSomethingElse"; "entity.flags DrawName DrawSomethingElse"]%string.
Definition ex_replies : list (list bytes * option bytes * bytes) :=
  [ex_shows "DrawBoundingBox|DrawName"; ex_draw ["Drawing bounding box"; "Drawing name"]%string; ex_shows "DrawOrigin|DrawWireframe";
   ex_draw ["Drawing origin"; "Drawing wireframe"]%string; ex_shows "DrawOrigin"; ex_draw ["Drawing origin"]%string;
   ex_shows "DrawOrigin|DrawWireframe"; ex_shows "DrawOrigin|DrawWireframe"; ex_shows "DrawOrigin|DrawWireframe";
   ([lit "Unable to convert 'DrawName DrawSomethingElse' to type 'vector<{anonymous}::EntityDebugDrawFlags>': Unable to convert 'DrawSomethingElse' to type '{anonymous}::EntityDebugDrawFlags': Possible values are ['DrawBoundingBox', 'DrawOrigin', 'DrawWireframe', 'DrawName']"], None, []);
   ([lit "Wrong number of arguments to 'entity.flags': expected 0 or 1, got 2"], None, [])]%string.
Example C92_ex_run : ex_session ex_commands = Done (ex_replies, 6%Z).
Proof. vm_compute. reflexivity. Qed.

(** Any order, any case, numbers, nothing at all, and bits without a name. *)
Example C92_ex_other : ex_session ["entity.flags drawname|DRAWORIGIN|DrawName"; "entity.flags 8|2"; "entity.flags ()"; "entity.draw";
    "entity.flags 31"; "entity.draw"; "entity.flags ("; "flags"]%string =
  Done ([ex_shows "DrawOrigin|DrawName"; ex_shows "DrawOrigin|DrawName"; ex_shows ""; ex_draw []%string; ex_shows "";
         ex_draw ["Drawing bounding box"; "Drawing origin"; "Drawing wireframe"; "Drawing name"]%string;
         ([lit "Syntax error: Token '(' doesn't have a corresponding opening/closing token"], None, []); ([lit "No function 'flags' is registered"], None, [])], 31%Z).
Proof. vm_compute. reflexivity. Qed.

Lemma ran {A B C D E} (st : outcome A) (go : A -> outcome (B * C)) (f : C -> D) (g : B -> E) s r w :
  (s0 <- st ;; x <- go s0 ;; Done (f (snd x), g (fst x))) = Done (r, w) -> st = Done s ->
  exists s' xs, go s = Done (s', xs) /\ f xs = r /\ g s' = w.
Proof.
  intros X ->. cbn [bind] in X. destruct (go s) as [[s' xs]|?]; [|discriminate X]. cbn [bind fst snd] in X.
  injection X as <- <-. now exists s', xs.
Qed.
Lemma ex_done l r w s : ex_session l = Done (r, w) -> start true = Done s ->
  exists s' xs, FlagsExample.run ex_p ex_nm ex_flags true true 3 s (map lit l) = Done (s', xs) /\ map reply xs = r /\ s_world s' = w.
Proof.
  exact (ran (start true) (fun s => FlagsExample.run ex_p ex_nm ex_flags true true 3 s (map lit l)) (map reply) s_world s r w).
Qed.
Lemma ex_no_nul : no_nul ex_flags.
Proof. now apply no_nul_lit. Qed.
Example C92_ex_first : first_flags 9.
Proof. now apply first_is. Qed.
Example C92_ex_dialogue : dialogue (table ex_p ex_flags) (acts ex_p ex_flags) (cfg_classes true default_cfg) 9%Z (map lit ex_commands) 6%Z ex_replies.
Proof.
  apply (C92_session_iff ex_p ex_nm ex_flags true true 3 ex_no_nul); [exact C92_ex_first| |].
  - unfold ex_commands. cbn [map]. repeat constructor; vm_compute; intuition discriminate.
  - destruct (begun ex_p ex_nm ex_flags true true 3 ex_no_nul 9%Z C92_ex_first) as (s & X & _). exists s.
    destruct (ex_done _ _ _ s C92_ex_run X) as (s' & xs & H). exists s', xs. split; [exact X|exact H].
Qed.
(** The hypotheses of C92_set_draw. *)
Example C92_ex_set_draw : incl [(3%Z, lit "DrawName"); (1%Z, lit "DrawOrigin")] bits_named /\
  Forall2 (fun s kn => same_word s (snd kn)) [lit "DrawName"; lit "DrawOrigin"] [(3%Z, lit "DrawName"); (1%Z, lit "DrawOrigin")].
Proof.
  split; [intros x [<-|[<-|[]]]; cbn; tauto|]. repeat constructor; apply same_word_refl.
Qed.

(** * Assumptions *)
Print Assumptions C92_session_iff.
Print Assumptions C92_no_fault.
Print Assumptions C92_described.
Print Assumptions C92_set_same.
Print Assumptions C92_set_draw.
Print Assumptions C92_shown_refuted.
