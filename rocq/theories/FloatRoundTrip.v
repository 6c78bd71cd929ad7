(** Printing followed by parsing, for the three formats. *)
From Coq Require Import Ascii String NArith ZArith QArith Qround Qpower Qabs Lqa Bool PeanoNat Lia List.
Import ListNotations.
From Verif Require Import Base StringConv StringConvSpec StringConvProofs SerializerSpec
  FloatConv FloatConvSpec FloatArith FloatRound FloatScan FloatConvProofs.
Local Open Scope Q_scope.

Definition standard (f : fmt) : Prop := f = binary32 \/ f = binary64 \/ f = x87.

Lemma standard_sane f : standard f -> sane f.
Proof. intros [->|[->| ->]]; unfold sane; cbn; lia. Qed.

Lemma standard_range f : standard f -> (24 <= prec f <= 64)%Z /\ (emin f <= -149)%Z /\ (104 <= emax f)%Z
  /\ (emin f + prec f <= -125)%Z.
Proof. intros [->|[->| ->]]; cbn; lia. Qed.

(** ** Comparison with the threshold *)

Lemma Qltb_iff a b : Qltb a b = true <-> a < b.
Proof.
  unfold Qltb. rewrite negb_true_iff. split.
  - intros H. apply Qnot_le_lt. intros L. apply Qle_bool_iff in L. congruence.
  - intros H. destruct (Qle_bool b a) eqn:E; [|reflexivity]. apply Qle_bool_iff in E. lra.
Qed.

Lemma Qltb_false a b : Qltb a b = false <-> b <= a.
Proof.
  unfold Qltb. rewrite negb_false_iff. apply Qle_bool_iff.
Qed.

Lemma lit_pos : 0 < lit_1e_6. Proof. apply Qltb_iff. now vm_compute. Qed.

Lemma dyadic_nonneg m e : (0 <= m)%Z -> 0 <= dyadic m e.
Proof.
  intros H. apply Qmult_le_0_compat; [now apply inject_nonneg|apply Qlt_le_weak, pow2_pos].
Qed.

Lemma toString_small neg m e : (0 <= m)%Z -> dyadic m e < lit_1e_6 ->
  toStringF (Fin neg m e) = lit "0".
Proof.
  intros Hm H. pose proof (dyadic_nonneg m e Hm). pose proof lit_pos. unfold toStringF.
  assert (A : Qltb (- lit_1e_6) (signed neg (dyadic m e)) = true)
    by (apply Qltb_iff; destruct neg; cbn [signed]; lra).
  assert (B : Qltb (signed neg (dyadic m e)) lit_1e_6 = true)
    by (apply Qltb_iff; destruct neg; cbn [signed]; lra).
  now rewrite A, B.
Qed.

Lemma toString_large neg m e : (0 <= m)%Z -> lit_1e_6 <= dyadic m e ->
  toStringF (Fin neg m e) = minus neg (g_text (dyadic m e)).
Proof.
  intros Hm H. pose proof (dyadic_nonneg m e Hm). pose proof lit_pos. unfold toStringF.
  assert (A : Qltb (- lit_1e_6) (signed neg (dyadic m e)) && Qltb (signed neg (dyadic m e)) lit_1e_6 = false).
  { destruct neg; cbn [signed].
    - apply andb_false_iff. left. apply Qltb_false. lra.
    - apply andb_false_iff. right. apply Qltb_false. lra. }
  rewrite A. cbn [printf_g]. destruct (Z.eqb_spec m 0) as [->|]; [|reflexivity].
  exfalso. unfold dyadic at 1 in H. change (inject_Z 0) with 0 in H.
  assert (0 * 2 ^ e == 0) by ring. lra.
Qed.

(** The digits of a number at or above the threshold. *)
Lemma g_text_denotes q : 0 < q -> exists d X D,
  digits6 q = (d, X) /\ (100000 <= d <= 999999)%Z /\ nearest6 q d (X - 5) /\
  decimal_text (g_text q) D /\ D == inject_Z d * 10 ^ (X - 5).
Proof.
  intros Hq. destruct (digits6 q) as [d X] eqn:E. destruct (digits6_spec q d X Hq E) as [N _].
  pose proof N as [Hd _]. destruct (g_digits_denotes d X Hd) as (D & HD & HE).
  exists d, X, D. split; [reflexivity|]. split; [exact Hd|]. split; [exact N|].
  rewrite g_text_digits, E. cbn [fst snd]. now split.
Qed.

Lemma zero_text_value D : decimal_text (lit "0") D -> D == 0.
Proof.
  intros H. apply scan_decimal_app in H.
  assert (E : exists q, scan_decimal (lit "0") = Some (SNum q, []) /\ q == 0).
  { eexists. split; [reflexivity|]. now vm_compute. }
  destruct E as (q & E & Hq). rewrite E in H. inversion H; subst. exact Hq.
Qed.

Lemma six_pos d k : (100000 <= d)%Z -> 0 < inject_Z d * 10 ^ k.
Proof.
  intros H. apply Qmult_lt_0_compat; [|apply pow10_pos]. change 0 with (inject_Z 0). apply inject_lt. lia.
Qed.

Lemma minus_g_not_zero neg q : 0 < q -> minus neg (g_text q) <> lit "0".
Proof.
  intros Hq. destruct neg; cbn [minus]; [discriminate|].
  destruct (g_text_denotes q Hq) as (d & X & D & _ & Hd & _ & HD & E).
  intros H. rewrite H in HD. apply zero_text_value in HD.
  pose proof (six_pos d (X - 5) (proj1 Hd)). lra.
Qed.

(** ** Six-digit numbers next to a given one *)

(** Six-digit numbers above ds * 10^ks are at least one unit above. *)
Lemma six_above d k ds ks : (0 <= d <= 999999)%Z -> (100000 <= ds)%Z ->
  inject_Z ds * 10 ^ ks < inject_Z d * 10 ^ k ->
  inject_Z ds * 10 ^ ks + 10 ^ ks <= inject_Z d * 10 ^ k.
Proof.
  intros Hd Hds H. pose proof (pow10_pos ks) as P.
  assert (K : (ks <= k)%Z).
  { destruct (Z_le_gt_dec ks k) as [|G]; [easy|]. exfalso.
    assert (A : inject_Z d * 10 ^ k <= inject_Z 1000000 * 10 ^ k)
      by (apply Qmult_le_compat_r; [apply inject_le; lia|apply Qlt_le_weak, pow10_pos]).
    assert (B : inject_Z 1000000 * 10 ^ k <= 100000 * 10 ^ ks).
    { change (inject_Z 1000000) with (10 ^ 6). change 100000 with (10 ^ 5). rewrite <- !pow10_add.
      apply pow10_le. lia. }
    assert (C : 100000 * 10 ^ ks <= inject_Z ds * 10 ^ ks)
      by (apply Qmult_le_compat_r; [exact (inject_le 100000 ds Hds)|lra]).
    lra. }
  assert (E : inject_Z d * 10 ^ k == inject_Z (d * 10 ^ (k - ks)) * 10 ^ ks).
  { rewrite inject_Z_mult, pow10_Z by lia. replace k with (k - ks + ks)%Z at 1 by lia.
    rewrite pow10_add. ring. }
  rewrite E in *. apply Qmult_lt_r in H; [|exact P]. rewrite <- Zlt_Qlt in H.
  assert (L : inject_Z (ds + 1) <= inject_Z (d * 10 ^ (k - ks))) by (apply inject_le; lia).
  apply (Qmult_le_compat_r _ _ (10 ^ ks)) in L; [|lra].
  rewrite inject_Z_plus in L. change (inject_Z 1) with 1 in L. lra.
Qed.

(** A number below the middle of ds * 10^ks and the next is not printed as more. *)
Lemma nearest6_upper x d k ds ks : (100000 <= ds <= 999999)%Z -> nearest6 x d k ->
  x < (inject_Z ds + (1 # 2)) * 10 ^ ks -> inject_Z d * 10 ^ k <= inject_Z ds * 10 ^ ks.
Proof.
  intros Hds [Hd N] Hx. apply Qnot_lt_le. intros L.
  apply six_above in L; [|lia..].
  destruct (N ds ks ltac:(lia)) as [A _].
  pose proof (pow10_pos ks).
  revert A. apply Qabs_case; apply Qabs_case; intros; lra.
Qed.

Lemma max_bound f m e : sane f -> magnitude_in f m e ->
  dyadic m e <= inject_Z (2 ^ prec f - 1) * 2 ^ emax f.
Proof.
  intros [Hp _] (Hm & He & _). unfold dyadic.
  apply Qle_trans with (inject_Z (2 ^ prec f - 1) * 2 ^ e).
  - apply Qmult_le_compat_r; [apply inject_le; lia|apply Qlt_le_weak, pow2_pos].
  - rewrite !(Qmult_comm (inject_Z (2 ^ prec f - 1))). apply Qmult_le_compat_r.
    + apply pow2_le. lia.
    + apply inject_nonneg. lia.
Qed.

(** No printed number is out of range. *)
Lemma no_overflow_by f ds ks : sane f ->
  (100000 <= ds <= 999999)%Z ->
  Qltb (inject_Z (2 ^ prec f - 1) * 2 ^ emax f) ((inject_Z ds + (1 # 2)) * 10 ^ ks) = true ->
  Qltb (inject_Z ds * 10 ^ ks) ((inject_Z (2 ^ prec f) - (1 # 2)) * 2 ^ emax f) = true ->
  forall m e d k, magnitude_in f m e -> nearest6 (dyadic m e) d k ->
  ~ too_large f (inject_Z d * 10 ^ k).
Proof.
  intros Hs Hds H1 H2 m e d k Hm N T. apply Qltb_iff in H1. apply Qltb_iff in H2.
  pose proof (max_bound f m e Hs Hm) as B.
  assert (A : inject_Z d * 10 ^ k <= inject_Z ds * 10 ^ ks).
  { apply (nearest6_upper (dyadic m e)); [exact Hds|exact N|].
    eapply Qle_lt_trans; [exact B|exact H1]. }
  unfold too_large in T. apply (Qlt_irrefl (inject_Z ds * 10 ^ ks)).
  eapply Qlt_le_trans; [exact H2|]. eapply Qle_trans; [exact T|exact A].
Qed.

Lemma no_overflow f m e d k : standard f -> magnitude_in f m e -> nearest6 (dyadic m e) d k ->
  ~ too_large f (inject_Z d * 10 ^ k).
Proof.
  intros Hf. pose proof (standard_sane f Hf) as Hs. destruct Hf as [->|[->| ->]].
  - apply (no_overflow_by binary32 340282 33 Hs); [lia|now vm_compute..].
  - apply (no_overflow_by binary64 179769 303 Hs); [lia|now vm_compute..].
  - apply (no_overflow_by x87 118973 4927 Hs); [lia|now vm_compute..].
Qed.

(** What is not printed as 0 is printed as at least 10^-6. *)
Lemma nearest6_lower x d k : lit_1e_6 <= x -> nearest6 x d k ->
  1 # 1000000 <= inject_Z d * 10 ^ k.
Proof.
  intros Hx [Hd N]. apply Qnot_lt_le. intros L.
  destruct (N 100000%Z (-11)%Z ltac:(lia)) as [A _].
  assert (E : inject_Z 100000 * 10 ^ (-11) == 1 # 1000000) by (now vm_compute). rewrite E in A.
  assert (K : (k <= -12)%Z).
  { destruct (Z_le_gt_dec k (-12)) as [|G]; [easy|]. exfalso.
    assert (B : inject_Z 100000 * 10 ^ k <= inject_Z d * 10 ^ k)
      by (apply Qmult_le_compat_r; [apply inject_le; lia|apply Qlt_le_weak, pow10_pos]).
    assert (C : inject_Z 100000 * 10 ^ (-11) <= inject_Z 100000 * 10 ^ k).
    { rewrite !(Qmult_comm (inject_Z 100000)). apply Qmult_le_compat_r; [apply pow10_le; lia|].
      apply inject_nonneg. lia. }
    rewrite E in C. lra. }
  assert (U : inject_Z d * 10 ^ k <= 999999 # 1000000000000).
  { apply Qle_trans with (inject_Z 999999 * 10 ^ (-12)).
    - apply Qle_trans with (inject_Z 999999 * 10 ^ k).
      + apply Qmult_le_compat_r; [apply inject_le; lia|apply Qlt_le_weak, pow10_pos].
      + rewrite !(Qmult_comm (inject_Z 999999)). apply Qmult_le_compat_r; [apply pow10_le; lia|].
        apply inject_nonneg. lia.
    - apply Qle_bool_iff. now vm_compute. }
  assert (T : (9999999 # 10000000000000) <= lit_1e_6) by (apply Qle_bool_iff; now vm_compute).
  revert A. apply Qabs_case; apply Qabs_case; intros; lra.
Qed.

(** ** Rounding to the format *)

Lemma nearest_round f q m e : sane f -> 0 < q -> ~ too_large f q ->
  (nearest_magnitude f q m e <-> round_fmt f q = (m, e)).
Proof.
  intros Hs Hq T. destruct (round_fmt f q) as [m0 e0] eqn:R.
  destruct (round_fmt_spec f q m0 e0 Hs Hq R) as (TL & N & _).
  assert (L : (e0 <= emax f)%Z).
  { destruct (Z_le_gt_dec e0 (emax f)) as [|G]; [easy|]. exfalso. apply T, TL. lia. }
  split.
  - intros N'. destruct (nearest_unique f q m e m0 e0 Hs N' (N L)) as [-> ->]. reflexivity.
  - intros E. inversion E; subst. now apply N.
Qed.

Lemma nearest_exists f q : sane f -> 0 < q -> ~ too_large f q ->
  exists m e, nearest_magnitude f q m e.
Proof.
  intros Hs Hq T. destruct (round_fmt f q) as [m e] eqn:R. exists m, e. now apply nearest_round.
Qed.

Lemma relative_error f D m e : standard f -> 1 # 1000000 <= D -> ~ too_large f D ->
  nearest_magnitude f D m e ->
  Qabs (D - dyadic m e) <= D * (1 # 16777216) /\ (2 ^ (prec f - 1) <= m)%Z.
Proof.
  intros Hf HD T N. pose proof (standard_sane f Hf) as Hs. pose proof (standard_range f Hf) as R.
  assert (Hpos : 0 < D) by lra.
  pose proof N as N0. apply nearest_round in N0; [|easy..].
  destruct (round_fmt_spec f D m e Hs Hpos N0) as (_ & _ & Err).
  destruct (ilog_spec 2 D two_le_two Hpos) as [L1 L2]. change (inject_Z 2) with 2 in L1, L2.
  assert (HL : (-20 <= ilog 2 D)%Z).
  { assert (A : 2 ^ (-20) < 2 ^ (ilog 2 D + 1)).
    { eapply Qlt_trans; [|exact L2]. eapply Qlt_le_trans; [|exact HD]. apply Qltb_iff. now vm_compute. }
    apply (pow_lt_inv 2 _ _ two_le_two) in A. lia. }
  rewrite Z.max_r in Err by lia.
  assert (E24 : Qabs (D - dyadic m e) <= D * (1 # 16777216)).
  { eapply Qle_trans; [exact Err|].
    apply Qle_trans with (2 ^ ilog 2 D * (1 # 16777216)).
    - replace (ilog 2 D - prec f + 1)%Z with (1 + (ilog 2 D + (24 - prec f) + - 24))%Z by lia.
      rewrite !pow2_add. change (2 ^ 1) with 2. change (2 ^ (- 24)) with (1 # 16777216).
      assert (P1 : 2 ^ (24 - prec f) <= 1).
      { change 1 with (2 ^ 0). apply pow2_le. lia. }
      pose proof (pow2_pos (ilog 2 D)) as P.
      assert (B : 2 ^ ilog 2 D * 2 ^ (24 - prec f) <= 2 ^ ilog 2 D * 1).
      { rewrite !(Qmult_comm (2 ^ ilog 2 D)). apply Qmult_le_compat_r; lra. }
      lra.
    - apply Qmult_le_compat_r; [exact L1|lra]. }
  split; [exact E24|].
  destruct (Z_le_gt_dec (2 ^ (prec f - 1)) m) as [|G]; [easy|]. exfalso.
  destruct N as [(Hm & He & Hsub) _]. specialize (Hsub ltac:(lia)). subst e.
  assert (A : dyadic m (emin f) <= 2 ^ (-21)).
  { unfold dyadic. apply Qle_trans with (inject_Z (2 ^ (prec f - 1)) * 2 ^ emin f).
    - apply Qmult_le_compat_r; [apply inject_le; lia|apply Qlt_le_weak, pow2_pos].
    - rewrite pow2_Z, <- pow2_add by lia. apply pow2_le. lia. }
  assert (B : 2 ^ (-21) <= 1 # 2000000) by (apply Qle_bool_iff; now vm_compute).
  apply Qabs_Qle_condition in E24. lra.
Qed.

(** ** Texts with signs *)

Lemma signed_text neg s q : decimal_text s q -> float_text (minus neg s) neg (Number q).
Proof.
  intros H. destruct neg; cbn [minus].
  - apply (float_text_intro [] ["-"%char] true s); [easy|tauto|now constructor].
  - apply (float_text_intro [] [] false s); [easy|tauto|now constructor].
Qed.

(** Parsing the text of a number that is not printed as 0. *)
Lemma parse_printed f uf neg m e : standard f -> magnitude_in f m e -> lit_1e_6 <= dyadic m e ->
  exists d X m' e',
    digits6 (dyadic m e) = (d, X) /\ nearest6 (dyadic m e) d (X - 5) /\
    1 # 1000000 <= inject_Z d * 10 ^ (X - 5) /\
    nearest_magnitude f (inject_Z d * 10 ^ (X - 5)) m' e' /\
    Qabs (inject_Z d * 10 ^ (X - 5) - dyadic m' e') <= inject_Z d * 10 ^ (X - 5) * (1 # 16777216) /\
    floatFromString f uf (toStringF (Fin neg m e)) = Some (Fin neg m' e').
Proof.
  intros Hf Hm HT. pose proof (standard_sane f Hf) as Hs. pose proof lit_pos as LP.
  assert (Hq : 0 < dyadic m e) by lra.
  destruct (g_text_denotes (dyadic m e) Hq) as (d & X & D & E & Hd & N & HD & HE).
  pose proof (nearest6_lower _ _ _ HT N) as Low.
  pose proof (no_overflow f m e d (X - 5) Hf Hm N) as NO.
  destruct (nearest_exists f (inject_Z d * 10 ^ (X - 5)) Hs) as (m' & e' & NM); [lra|exact NO|].
  destruct (relative_error f _ m' e' Hf Low NO NM) as [Rel Norm].
  exists d, X, m', e'. do 5 (split; [assumption|]).
  rewrite toString_large by (try exact HT; destruct Hm; lia).
  apply floatFromString_spec; [exact Hs|].
  apply (conversion_number f uf _ neg D m' e').
  - now apply signed_text.
  - unfold too_large in *. rewrite HE. exact NO.
  - eapply nearest_comp; [|exact NM]. now symmetry.
  - intros _ [Small _]. lia.
Qed.

(** Printing the value read back. *)
Lemma same_digits q m e d X : (100000 <= d <= 999999)%Z ->
  q == inject_Z d * 10 ^ (X - 5) ->
  Qabs (q - dyadic m e) <= q * (1 # 16777216) -> g_text (dyadic m e) = g_digits d X.
Proof.
  intros Hd E H. rewrite g_text_digits.
  rewrite (digits6_close (dyadic m e) d X Hd); [reflexivity|].
  rewrite <- E. rewrite Qabs_Qminus. exact H.
Qed.

(** If a value [c] of the format is at most [q], so is c at most the nearest value. *)
Lemma nearest_above f q m e mc ec : magnitude_in f mc ec -> dyadic mc ec <= q ->
  nearest_magnitude f q m e -> dyadic mc ec <= dyadic m e.
Proof.
  intros Hc Hq [_ N]. destruct (N mc ec Hc) as [A _]. fold (dyadic mc ec) (dyadic m e) in A.
  apply Qnot_lt_le. intros L. revert A. apply Qabs_case; apply Qabs_case; intros; lra.
Qed.

Lemma parse_zero f uf : sane f -> floatFromString f uf (lit "0") = Some (Fin false 0 (emin f)).
Proof.
  intros Hs. unfold floatFromString. change (lit "0") with ["0"%char]. rewrite c_str_nonul.
  - rewrite strtof_unfold. reflexivity.
  - apply nz_nonul. reflexivity.
Qed.
