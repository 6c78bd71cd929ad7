(** Correctness of FloatOps.v. *)
From Coq Require Import ZArith QArith Qround Qpower Qabs Lqa Lia Bool.
From Verif Require Import Base StringConv StringConvSpec FloatConv FloatConvSpec FloatArith FloatRound FloatConvProofs
  UserTypesProofs NamedExampleSpec FloatOps FloatOpsSpec.
Local Open Scope Q_scope.

Lemma too_large_pos q : too_large binary32 q -> 0 < q.
Proof. unfold too_large. intros H. eapply Qlt_le_trans; [|exact H]. now vm_compute. Qed.

Lemma nearest_zero_iff q m e : q == 0 -> nearest_magnitude binary32 q m e -> m = 0%Z /\ e = (-149)%Z.
Proof. intros Z H. exact (nearest_unique _ _ _ _ _ _ binary32_sane H (nearest_zero binary32 q binary32_sane Z)). Qed.

Lemma rounded_nearest neg q x : 0 <= q -> (rounded neg q = x <-> nearest_float neg q x).
Proof.
  intros P. unfold rounded. destruct (Qle_bool q 0) eqn:B.
  - apply Qle_bool_iff in B. assert (Z : q == 0) by lra. split.
    + intros <-. constructor; [intros T; apply too_large_pos in T; lra|]. now apply (nearest_zero binary32 q binary32_sane).
    + intros [m e _ N|T]; [|apply too_large_pos in T; lra]. destruct (nearest_zero_iff q m e Z N) as [-> ->]. reflexivity.
  - assert (Hq : 0 < q) by (apply Qnot_le_lt; intros L; apply Qle_bool_iff in L; congruence).
    destruct (round_fmt binary32 q) as [m e] eqn:R.
    destruct (round_fmt_spec binary32 q m e binary32_sane Hq R) as (TL & NM & _).
    destruct (Z.ltb_spec (emax binary32) e) as [L|L].
    + split; [intros <-; constructor; now apply TL|]. intros [m' e' T _|T]; [elim T; now apply TL|reflexivity].
    + assert (NT : ~ too_large binary32 q) by (rewrite <- TL; lia). split; [intros <-; constructor; [exact NT|now apply NM]|].
      intros [m' e' _ N|T]; [|contradiction]. destruct (nearest_unique _ _ _ _ _ _ binary32_sane (NM L) N) as [-> ->]. reflexivity.
Qed.

Lemma rounded_in neg q : 0 <= q -> value_in binary32 (rounded neg q).
Proof.
  intros P. assert (N : nearest_float neg q (rounded neg q)) by now apply rounded_nearest.
  destruct N as [m e _ [N _]|]; [exact N|exact I].
Qed.

Lemma dyadic_nonneg m e : (0 <= m)%Z -> 0 <= dyadic m e.
Proof.
  intros H. unfold dyadic. apply Qmult_le_0_compat; [|apply Qlt_le_weak, pow2_pos].
  change 0 with (inject_Z 0). now apply inject_le.
Qed.
Lemma dyadic_pos m e : (0 < m)%Z -> 0 < dyadic m e.
Proof.
  intros H. unfold dyadic. apply Qmult_lt_0_compat; [|apply pow2_pos]. change 0 with (inject_Z 0). now apply inject_lt.
Qed.

Lemma value_nonneg neg m e : value_in binary32 (Fin neg m e) -> (0 <= m)%Z.
Proof. intros ((H & _) & _). exact H. Qed.

Ltac kinds := repeat match goal with
  | H : magnitude (Fin _ _ _) _ |- _ => destruct H as (? & ? & ? & E & ->); injection E as <- <- <-
  | H : magnitude (Inf _) _ |- _ => exfalso; destruct H as (? & ? & ? & E & _); discriminate E
  | H : magnitude (NaN _) _ |- _ => exfalso; destruct H as (? & ? & ? & E & _); discriminate E
  | H : infinite (Fin _ _ _) |- _ => exfalso; destruct H as (? & E); discriminate E
  | H : infinite (NaN _) |- _ => exfalso; destruct H as (? & E); discriminate E
  | H : zero (Inf _) |- _ => exfalso; destruct H as (? & ? & E); discriminate E
  | H : zero (NaN _) |- _ => exfalso; destruct H as (? & ? & E); discriminate E
  | H : zero (Fin _ _ _) |- _ => destruct H as (? & ? & E); injection E as <- -> <-
  | H : _ \/ _ |- _ => destruct H
  | H : _ /\ _ |- _ => destruct H
  | H : Fin _ _ _ = NaN _ |- _ => discriminate H
  | H : Inf _ = NaN _ |- _ => discriminate H
  | H : NaN _ = NaN _ |- _ => injection H as <-
  | H : ~ not_a_number (NaN ?s) |- _ => exfalso; apply H; now exists s
  | H : ~ zero (Fin ?s 0 ?e) |- _ => exfalso; apply H; now exists s, e
  end.

Ltac other := let X := fresh in intros X; repeat destruct X as (? & X); discriminate X.

Lemma mag_fin s m e : magnitude (Fin s m e) (dyadic m e).
Proof. now exists s, m, e. Qed.
Lemma not_zero s m e : m <> 0%Z -> ~ zero (Fin s m e).
Proof. intros N (s' & e' & E). injection E as _ E _. contradiction. Qed.

Lemma fmul_product ns a b x : value_in binary32 a -> value_in binary32 b ->
  (fmul ns a b = x <-> float_product ns a b x).
Proof.
  intros Va Vb. split.
  - intros <-. destruct a as [s m e|s|s]; destruct b as [t m' e'|t|t]; cbn [fmul].
    + eapply (product_finite _ _ _ _ _ _ (mag_fin s m e) (mag_fin t m' e')). apply rounded_nearest; [|reflexivity].
      apply Qmult_le_0_compat; apply dyadic_nonneg; eapply value_nonneg; eassumption.
    + destruct (Z.eqb_spec m 0) as [->|N].
      * apply product_invalid. right. split; [now exists s, e|now exists t].
      * apply (product_infinite ns (Fin s m e) (Inf t)); [right; now exists t|now apply not_zero|..]; other.
    + apply product_nan. right. split; [intros (? & X); discriminate X|reflexivity].
    + destruct (Z.eqb_spec m' 0) as [->|N].
      * apply product_invalid. left. split; [now exists s|now exists t, e'].
      * apply (product_infinite ns (Inf s) (Fin t m' e')); [left; now exists s|intros (? & ? & X); discriminate X|now apply not_zero|..]; intros (? & X); discriminate X.
    + apply (product_infinite ns (Inf s) (Inf t)); [left; now exists s|..]; other.
    + apply product_nan. right. split; [intros (? & X); discriminate X|reflexivity].
    + apply product_nan. now left.
    + apply product_nan. now left.
    + apply product_nan. now left.
  - intros [q r y Ma Mb N|Hi Za Zb Na Nb|Hi|s Hi];
      destruct a as [s0 m e|s0|s0]; destruct b as [t m' e'|t|t]; kinds; cbn [fmul negative]; try reflexivity.
    + apply rounded_nearest; [|exact N].
      apply Qmult_le_0_compat; apply dyadic_nonneg; eapply value_nonneg; eassumption.
    + destruct (Z.eqb_spec m 0) as [->|]; [kinds|reflexivity].
    + destruct (Z.eqb_spec m' 0) as [->|]; [kinds|reflexivity].
Qed.

Lemma fdiv_quotient ns a b x : value_in binary32 a -> value_in binary32 b ->
  (fdiv ns a b = x <-> float_quotient ns a b x).
Proof.
  intros Va Vb.
  assert (Pos : forall m e m' e', (0 <= m)%Z -> (0 <= m')%Z -> m' <> 0%Z -> 0 <= dyadic m e / dyadic m' e').
  { intros m e m' e' H H' N. apply Qle_shift_div_l; [apply dyadic_pos; lia|]. ring_simplify. now apply dyadic_nonneg. }
  split.
  - intros <-. destruct a as [s m e|s|s]; destruct b as [t m' e'|t|t]; cbn [fdiv].
    + destruct (Z.eqb_spec m' 0) as [->|N'].
      * destruct (Z.eqb_spec m 0) as [->|N].
        -- apply quotient_invalid. left. split; [now exists s, e|now exists t, e'].
        -- apply (quotient_by_zero ns (Fin s m e) (Fin t 0 e')); [now exists t, e'|now apply not_zero|intros (? & X); discriminate X].
      * eapply (quotient_finite _ _ _ _ _ _ (mag_fin s m e) (mag_fin t m' e')); [now apply not_zero|].
        apply rounded_nearest; [|reflexivity]. apply Pos; [eapply value_nonneg; eassumption..|exact N'].
    + exact (quotient_by_infinite ns (Fin s m e) (Inf t) _ (mag_fin s m e) (ex_intro _ t eq_refl)).
    + apply quotient_nan. right. split; [intros (? & X); discriminate X|reflexivity].
    + exact (quotient_of_infinite ns (Inf s) (Fin t m' e') _ (ex_intro _ s eq_refl) (mag_fin t m' e')).
    + apply quotient_invalid. right. split; [now exists s|now exists t].
    + apply quotient_nan. right. split; [intros (? & X); discriminate X|reflexivity].
    + apply quotient_nan. now left.
    + apply quotient_nan. now left.
    + apply quotient_nan. now left.
  - intros [q r y Ma Mb Nz N|Zb Za Na|q Ia Mb|q Ma Ib|Hi|s Hi];
      destruct a as [s0 m e|s0|s0]; destruct b as [t m' e'|t|t]; kinds; cbn [fdiv negative]; try reflexivity.
    + destruct (Z.eqb_spec m' 0) as [->|N']; [kinds|].
      apply rounded_nearest; [|exact N]. apply Pos; [eapply value_nonneg; eassumption..|exact N'].
    + cbn. destruct (Z.eqb_spec m 0) as [->|]; [kinds|reflexivity].
Qed.

Lemma fmul_in ns a b : value_in binary32 a -> value_in binary32 b -> value_in binary32 (fmul ns a b).
Proof.
  intros Va Vb. destruct a as [s m e|s|s]; destruct b as [t m' e'|t|t]; cbn [fmul]; try exact I.
  - apply rounded_in, Qmult_le_0_compat; apply dyadic_nonneg; eapply value_nonneg; eassumption.
  - destruct (m =? 0)%Z; exact I.
  - destruct (m' =? 0)%Z; exact I.
Qed.

Lemma fdiv_in ns a b : value_in binary32 a -> value_in binary32 b -> value_in binary32 (fdiv ns a b).
Proof.
  intros Va Vb. destruct a as [s m e|s|s]; destruct b as [t m' e'|t|t]; cbn [fdiv]; try exact I.
  - destruct (Z.eqb_spec m' 0) as [->|N]; [destruct (m =? 0)%Z; exact I|].
    apply value_nonneg in Va. apply value_nonneg in Vb.
    apply rounded_in, Qle_shift_div_l; [apply dyadic_pos; lia|]. ring_simplify. now apply dyadic_nonneg.
  - apply (rounded_in (xorb s t) 0). lra.
Qed.

(** ** Sizes *)

Section Sizes.
Variables (p : platform) (size_t : ctype).
Hypothesis Us : size_type size_t.

Lemma size_max_type : type_max p size_t = size_max p size_t /\ type_min p size_t = 0%Z.
Proof. destruct Us as [-> |[-> | ->]]; cbn; [now split| |now split]. destruct (long_is p); now split. Qed.

Lemma size_range n : in_range p size_t n <-> (0 <= n <= size_max p size_t)%Z.
Proof. unfold in_range. destruct size_max_type as [-> ->]. reflexivity. Qed.

Lemma size_max_bounds : (2 ^ 32 - 1 <= size_max p size_t <= 2 ^ 64 - 1)%Z.
Proof. destruct Us as [-> |[-> | ->]]; cbn; try lia. destruct (long_is p); lia. Qed.

Lemma of_size_in n : (0 <= n)%Z -> value_in binary32 (of_size n).
Proof. intros H. apply rounded_in. change 0 with (inject_Z 0). now apply inject_le. Qed.

Lemma of_size_nearest n x : (0 <= n)%Z -> (of_size n = x <-> nearest_float false (inject_Z n) x).
Proof. intros H. apply rounded_nearest. change 0 with (inject_Z 0). now apply inject_le. Qed.

Lemma floor_whole q n : 0 <= q -> (Qfloor q = n <-> (0 <= n)%Z /\ Qabs (q - inject_Z n) < 1 /\ inject_Z n <= q).
Proof.
  intros P. assert (L := Qfloor_le q). assert (U := Qlt_floor q). rewrite inject_Z_plus in U. change (inject_Z 1) with 1 in U. split.
  - intros <-. split; [|split; [|exact L]].
    + assert (H : (0 < Qfloor q + 1)%Z); [|lia]. rewrite Zlt_Qlt. rewrite inject_Z_plus. change (inject_Z 0) with 0. change (inject_Z 1) with 1. lra.
    + rewrite Qabs_pos; lra.
  - intros (N & A & B). assert (A' : q - inject_Z n < 1) by (rewrite Qabs_pos in A; lra).
    assert (H1 : (Qfloor q < n + 1)%Z) by (rewrite Zlt_Qlt, inject_Z_plus; change (inject_Z 1) with 1; lra).
    assert (H2 : (n < Qfloor q + 1)%Z) by (rewrite Zlt_Qlt, inject_Z_plus; change (inject_Z 1) with 1; lra).
    lia.
Qed.

Lemma to_size_whole x n : value_in binary32 x -> (to_size p size_t x = Some n <-> whole_part p size_t x n).
Proof.
  intros V. unfold whole_part. rewrite size_range. destruct x as [neg m e|s|s].
  2,3: split; [discriminate|]; intros (_ & q & S & _); inversion S.
  apply value_nonneg in V. assert (D := dyadic_nonneg m e V). cbn [to_size].
  assert (F := proj1 (floor_whole (dyadic m e) _ D) eq_refl). set (k := Qfloor (dyadic m e)) in *. destruct F as (K & A & B).
  assert (Sn : forall q, stands_for (Fin neg m e) q -> q == signed neg (dyadic m e)).
  { intros q S. inversion S; subst; cbn; assumption. }
  assert (Se : stands_for (Fin neg m e) (signed neg (dyadic m e))) by (destruct neg; constructor; reflexivity).
  split.
  - destruct (Z.leb_spec 0 (if neg then - k else k)) as [L|]; [|discriminate].
    destruct (Z.leb_spec (if neg then - k else k) (size_max p size_t)) as [L'|]; [|discriminate]. cbn [andb].
    intros E. injection E as <-. split; [lia|]. eexists. split; [exact Se|]. destruct neg; cbn [signed].
    + assert (k = 0)%Z by lia. rewrite H in *. change (inject_Z (-0)) with 0. change (inject_Z 0) with 0 in A, B.
      split; [|change (Qabs 0) with 0; apply Qabs_nonneg].
      setoid_replace (- dyadic m e - 0) with (- (dyadic m e - 0)) by ring. now rewrite Qabs_opp.
    + split; [exact A|]. rewrite !Qabs_pos; [exact B|exact D|]. change 0 with (inject_Z 0). now apply inject_le.
  - intros (R & q & S & A' & B'). apply Sn in S. rewrite S in A', B'. destruct neg; cbn [signed] in *.
    + rewrite (Qabs_neg (- dyadic m e)) in B' by lra.
      assert (P0 : 0 <= inject_Z n) by (change 0 with (inject_Z 0); apply inject_le; lia).
      rewrite Qabs_pos in B' by exact P0. rewrite Qabs_neg in A' by lra.
      assert (n = 0)%Z.
      { destruct (Z_lt_le_dec 0 n) as [L|]; [exfalso|lia]. assert (1 <= inject_Z n) by (change 1 with (inject_Z 1); apply inject_le; lia). lra. }
      subst n. change (inject_Z 0) with 0 in *.
      assert (k = 0)%Z. { unfold k. apply floor_whole; [exact D|]. split; [lia|]. change (inject_Z 0) with 0. rewrite Qabs_pos; lra. }
      rewrite H. cbn [Z.opp]. destruct size_max_bounds. cbn [Z.leb Z.compare].
      destruct (Z.leb_spec 0 (size_max p size_t)); [reflexivity|lia].
    + assert (P0 : 0 <= inject_Z n) by (change 0 with (inject_Z 0); apply inject_le; lia).
      rewrite !Qabs_pos in B' by assumption.
      assert (E : k = n). { unfold k. apply floor_whole; [exact D|]. repeat split; [lia|exact A'|exact B']. }
      rewrite E. destruct (Z.leb_spec 0 n); [|lia]. destruct (Z.leb_spec n (size_max p size_t)); [reflexivity|lia].
Qed.

Lemma to_size_none x : value_in binary32 x -> (to_size p size_t x = None <-> no_whole_part p size_t x).
Proof.
  intros V. split.
  - intros E n H. apply to_size_whole in H; [congruence|exact V].
  - intros H. destruct (to_size p size_t x) as [n|] eqn:E; [|reflexivity]. elim (H n). now apply to_size_whole.
Qed.
End Sizes.
