(** Correctness of FloatSum.v. *)
From Coq Require Import ZArith QArith Qpower Qabs Lqa Lia Bool.
From Verif Require Import Base StringConv FloatConv FloatConvSpec FloatArith FloatRound FloatConvProofs P_Float UserTypesProofs
  FloatOps FloatOpsSpec FloatOpsProofs FloatSum FloatSumSpec.
Local Open Scope Q_scope.

Lemma nearest_same q q' m e : q == q' -> nearest_magnitude binary32 q m e -> nearest_magnitude binary32 q' m e.
Proof. intros E [M N]. split; [exact M|]. intros m' e' M'. specialize (N m' e' M'). now rewrite E in N. Qed.
Lemma nearest_float_same neg q q' x : q == q' -> nearest_float neg q x -> nearest_float neg q' x.
Proof.
  intros E [m e T N|T]; unfold too_large in T; rewrite E in T; constructor; [exact T|now apply nearest_same with (q := q)|exact T].
Qed.

Lemma rounded_same neg q q' : 0 <= q -> q == q' -> rounded neg q = rounded neg q'.
Proof.
  intros P E. apply rounded_nearest; [exact P|]. apply nearest_float_same with (q := q'); [now symmetry|].
  apply rounded_nearest; [|reflexivity]. now rewrite <- E.
Qed.

Lemma sum_sign_iff a b q neg : sum_sign a b q neg <-> sum_negative (negative a) (negative b) q = neg.
Proof.
  unfold sum_negative. destruct (Qle_bool 0 q) eqn:A; [destruct (Qle_bool q 0) eqn:B|].
  - apply Qle_bool_iff in A, B. split; [intros [H|H|H]; [lra|lra|reflexivity]|intros <-; apply sum_zero; lra].
  - apply Qle_bool_iff in A. assert (B' : 0 < q) by (apply Qnot_le_lt; intros H; apply Qle_bool_iff in H; congruence).
    split; [intros [H|H|H]; [lra|reflexivity|lra]|intros <-; apply sum_above; lra].
  - assert (A' : q < 0) by (apply Qnot_le_lt; intros H; apply Qle_bool_iff in H; congruence).
    split; [intros [H|H|H]; [reflexivity|lra|lra]|intros <-; apply sum_below; lra].
Qed.

Lemma sum_negative_same s t q q' : q == q' -> sum_negative s t q = sum_negative s t q'.
Proof.
  intros E. unfold sum_negative. rewrite (Qleb_comp 0 0 (Qeq_refl 0) q q' E), (Qleb_comp q q' E 0 0 (Qeq_refl 0)). reflexivity.
Qed.

Lemma stands_signed s m e q : stands_for (Fin s m e) q <-> q == signed s (dyadic m e).
Proof.
  split; [intros H; inversion H; subst; assumption|]. destruct s; intros H; constructor; exact H.
Qed.

Lemma fadd_sum ns a b x : fadd ns a b = x <-> float_sum ns a b x.
Proof.
  assert (St : forall s m e, exists q, stands_for (Fin s m e) q) by (intros s m e; eexists; now apply stands_signed).
  assert (NoI : forall s q, ~ stands_for (Inf s) q) by (intros s q H; inversion H).
  assert (NoN : forall s q, ~ stands_for (NaN s) q) by (intros s q H; inversion H).
  split.
  - intros <-. destruct a as [s m e|s|s]; destruct b as [t m' e'|t|t]; cbn [fadd].
    + eapply sum_finite; [now apply stands_signed|now apply stands_signed|apply sum_sign_iff; reflexivity|].
      apply rounded_nearest; [apply Qabs_nonneg|reflexivity].
    + apply sum_infinite. right. split; [apply St|reflexivity].
    + apply sum_nan. right. split; [intros (? & X); discriminate X|reflexivity].
    + apply sum_infinite. left. split; [reflexivity|]. right. apply St.
    + destruct s, t; cbn; try (apply sum_infinite; left; split; [reflexivity|now left]); now eapply sum_invalid.
    + apply sum_nan. right. split; [intros (? & X); discriminate X|reflexivity].
    + apply sum_nan. now left.
    + apply sum_nan. now left.
    + apply sum_nan. now left.
  - intros [q r neg y A B S N|s [[-> [->|(q & B)]]|[(q & A) ->]]|s -> ->|s [->|[Na ->]]].
    + destruct a as [s m e|s|s]; [|now apply NoI in A|now apply NoN in A].
      destruct b as [t m' e'|t|t]; [|now apply NoI in B|now apply NoN in B].
      apply stands_signed in A, B. cbn [fadd].
      assert (E : signed s (dyadic m e) + signed t (dyadic m' e') == q + r) by (now rewrite A, B).
      apply sum_sign_iff in S. cbn [negative] in S. rewrite (sum_negative_same _ _ _ _ E), S.
      apply rounded_nearest; [apply Qabs_nonneg|]. apply nearest_float_same with (q := Qabs (q + r)); [|exact N]. now rewrite E.
    + cbn. now rewrite eqb_reflx.
    + destruct b; [reflexivity|now apply NoI in B|now apply NoN in B].
    + destruct a; [reflexivity|now apply NoI in A|now apply NoN in A].
    + now destruct s.
    + now destruct b.
    + destruct a as [| |s']; [reflexivity|reflexivity|]. elim Na. now exists s'.
Qed.

Lemma fadd_in ns a b : value_in binary32 (fadd ns a b).
Proof.
  destruct a as [s m e|s|s]; destruct b as [t m' e'|t|t]; cbn [fadd]; try exact I.
  - apply rounded_in. apply Qabs_nonneg.
  - now destruct (Bool.eqb s t).
Qed.

(** Addition commutes but for the sign of NaN. *)
Lemma fadd_comm ns a b : (not_a_number a -> ~ not_a_number b) -> fadd ns a b = fadd ns b a.
Proof.
  intros H. destruct a as [s m e|s|s]; destruct b as [t m' e'|t|t]; cbn [fadd]; try reflexivity.
  - assert (E : signed s (dyadic m e) + signed t (dyadic m' e') == signed t (dyadic m' e') + signed s (dyadic m e)) by ring.
    rewrite (sum_negative_same s t _ _ E). unfold sum_negative at 1. rewrite (andb_comm s t). fold (sum_negative t s (signed t (dyadic m' e') + signed s (dyadic m e))).
    apply rounded_same; [apply Qabs_nonneg|]. now rewrite E.
  - destruct s, t; reflexivity.
  - elim H; [now exists s|now exists t].
Qed.

(** Zero changes no number but the other zero. *)
Lemma fadd_zero ns a s e : value_in binary32 a -> ~ zero a -> fadd ns a (Fin s 0 e) = a.
Proof.
  intros V Nz. destruct a as [t m e'|t|t]; [|reflexivity|reflexivity]. cbn [fadd].
  assert (Z0 : dyadic 0 e == 0) by (unfold dyadic; ring).
  assert (E : signed t (dyadic m e') + signed s (dyadic 0 e) == signed t (dyadic m e')) by (destruct s; cbn [signed]; rewrite Z0; ring).
  assert (Pm : (0 < m)%Z).
  { assert (L := value_nonneg _ _ _ V). destruct (Z.eq_dec m 0) as [->|]; [elim Nz; now exists t, e'|lia]. }
  assert (Pd := dyadic_pos m e' Pm).
  rewrite (sum_negative_same t s _ _ E). replace (sum_negative t s (signed t (dyadic m e'))) with t.
  2: { symmetry. apply (sum_sign_iff (Inf t) (Inf s)). destruct t; cbn [signed]; [apply sum_below|apply sum_above]; lra. }
  rewrite (rounded_same t _ (dyadic m e')); [|apply Qabs_nonneg|rewrite E; destruct t; cbn [signed]; [rewrite Qabs_opp|]; apply Qabs_pos; lra].
  apply rounded_nearest; [lra|]. destruct V as (M1 & M2 & M3). constructor.
  - intros T. unfold too_large in T. unfold dyadic in *. cbn in M1, M2, T.
    assert (B : inject_Z m * 2 ^ e' <= (inject_Z (2 ^ 24) - 1) * 2 ^ 104).
    { apply Qle_trans with ((inject_Z (2 ^ 24) - 1) * 2 ^ e').
      - apply Qmult_le_compat_r; [|apply Qlt_le_weak, pow2_pos]. change (inject_Z (2 ^ 24) - 1) with (inject_Z (2 ^ 24 - 1)). apply inject_le. cbn. lia.
      - apply Qmult_le_l; [reflexivity|]. apply Qpower_le_compat_l; [lia|discriminate]. }
    assert (B2 : (inject_Z (2 ^ 24) - 1) * 2 ^ 104 < (inject_Z (2 ^ 24) - (1 # 2)) * 2 ^ 104) by reflexivity.
    assert (X := Qle_trans _ _ _ T B). apply Qle_not_lt in X. now apply X.
  - apply nearest_exact; [exact binary32_sane|exact (conj M1 (conj M2 M3))|reflexivity].
Qed.
