(** Correctness of [round_fmt] and [digits6]. *)
From Coq Require Import ZArith QArith Qround Qpower Qabs Lqa Lia Bool List.
From Verif Require Import Base StringConv FloatConv FloatConvSpec FloatArith.
Local Open Scope Q_scope.

Lemma two_le_two : (2 <= 2)%Z. Proof. lia. Qed.
Lemma two_le_ten : (2 <= 10)%Z. Proof. lia. Qed.
#[global] Hint Resolve two_le_two two_le_ten : core.

Lemma pow2_pos k : 0 < 2 ^ k. Proof. exact (pow_pos 2 k two_le_two). Qed.
Lemma pow10_pos k : 0 < 10 ^ k. Proof. exact (pow_pos 10 k two_le_ten). Qed.
Lemma pow2_add i j : 2 ^ (i + j) == 2 ^ i * 2 ^ j. Proof. exact (pow_add 2 i j two_le_two). Qed.
Lemma pow10_add i j : 10 ^ (i + j) == 10 ^ i * 10 ^ j. Proof. exact (pow_add 10 i j two_le_ten). Qed.
Lemma pow2_Z k : (0 <= k)%Z -> inject_Z (2 ^ k) == 2 ^ k. Proof. exact (pow_Z 2 k). Qed.
Lemma pow2_le i j : (i <= j)%Z -> 2 ^ i <= 2 ^ j. Proof. exact (pow_le 2 i j two_le_two). Qed.
Lemma pow10_le i j : (i <= j)%Z -> 10 ^ i <= 10 ^ j. Proof. exact (pow_le 10 i j two_le_ten). Qed.

Lemma inject_le a b : (a <= b)%Z -> inject_Z a <= inject_Z b.
Proof. now rewrite <- Zle_Qle. Qed.
Lemma inject_lt a b : (a < b)%Z -> inject_Z a < inject_Z b.
Proof. now rewrite <- Zlt_Qlt. Qed.

(** 2^prec = 2 * 2^(prec-1). *)
Lemma double_half p : (1 <= p)%Z -> (2 ^ p = 2 * 2 ^ (p - 1))%Z.
Proof. intros H. rewrite <- Z.pow_succ_r by lia. f_equal. lia. Qed.

Lemma half_pos p : (1 <= p)%Z -> (1 <= 2 ^ (p - 1))%Z.
Proof. intros H. pose proof (Z.pow_pos_nonneg 2 (p - 1)). lia. Qed.

(** A value has one representation. *)
Lemma magnitude_unique_lt f m e m' e' :
  sane f -> magnitude_in f m e -> magnitude_in f m' e' -> (e < e')%Z ->
  ~ inject_Z m * 2 ^ e == inject_Z m' * 2 ^ e'.
Proof.
  intros [Hp _] (Hm & He & Hs) (Hm' & He' & Hs') L E.
  assert (A : (2 ^ (prec f - 1) <= m')%Z).
  { destruct (Z_lt_le_dec m' (2 ^ (prec f - 1))) as [X|X]; [|exact X]. specialize (Hs' X). lia. }
  replace e' with (e' - e + e)%Z in E at 1 by lia. rewrite pow2_add, Qmult_assoc in E.
  apply Qmult_inj_r in E; [|pose proof (pow2_pos e) as P; intros Z0; rewrite Z0 in P; lra].
  rewrite <- pow2_Z, <- inject_Z_mult in E by lia. apply (proj1 (inject_Z_injective _ _)) in E.
  assert (B : (2 <= 2 ^ (e' - e))%Z).
  { change 2%Z with (2 ^ 1)%Z at 1. apply Z.pow_le_mono_r; lia. }
  pose proof (double_half (prec f) ltac:(lia)). nia.
Qed.

Lemma magnitude_unique f m e m' e' :
  sane f -> magnitude_in f m e -> magnitude_in f m' e' ->
  inject_Z m * 2 ^ e == inject_Z m' * 2 ^ e' -> m = m' /\ e = e'.
Proof.
  intros Hs H H' E. destruct (Z.lt_trichotomy e e') as [L|[->|L]].
  - exfalso. now apply (magnitude_unique_lt f m e m' e').
  - split; [|reflexivity].
    apply Qmult_inj_r in E; [|pose proof (pow2_pos e') as P; intros Z0; rewrite Z0 in P; lra].
    now apply (proj1 (inject_Z_injective _ _)) in E.
  - exfalso. apply (magnitude_unique_lt f m' e' m e); try easy.
Qed.

(** The nearest value is unique. *)
Lemma nearest_unique f q m e m' e' :
  sane f -> nearest_magnitude f q m e -> nearest_magnitude f q m' e' -> m = m' /\ e = e'.
Proof.
  intros Hs [W N] [W' N'].
  destruct (N m' e' W') as [L T]. destruct (N' m e W) as [L' T'].
  assert (E : Qabs (q - inject_Z m * 2 ^ e) == Qabs (q - inject_Z m' * 2 ^ e')) by lra.
  assert (Dec : {(m', e') = (m, e)} + {(m', e') <> (m, e)}).
  { destruct (Z.eq_dec m' m); destruct (Z.eq_dec e' e); subst; [left; reflexivity|right; congruence..]. }
  destruct Dec as [D|D]; [inversion D; auto|].
  specialize (T E D). specialize (T' (Qeq_sym _ _ E) ltac:(congruence)).
  destruct Hs as [Hp He].
  (* Both are even, hence a value in between is nearer. *)
  assert (Main : forall m e m' e',
    magnitude_in f m e -> magnitude_in f m' e' -> Z.even m = true -> Z.even m' = true ->
    (forall n k, magnitude_in f n k -> Qabs (q - inject_Z m * 2 ^ e) <= Qabs (q - inject_Z n * 2 ^ k)) ->
    Qabs (q - inject_Z m * 2 ^ e) == Qabs (q - inject_Z m' * 2 ^ e') ->
    inject_Z m * 2 ^ e < inject_Z m' * 2 ^ e' -> False).
  { clear m e m' e' W N W' N' L T L' T' E D. intros m e m' e' W W' Hev Hev' N E L.
    pose proof W as W0. pose proof W' as W0'.
    destruct W as (Hm & Hem & Hs). destruct W' as (Hm' & Hem' & Hs').
    assert (Hlt : (m + 1 < 2 ^ prec f)%Z).
    { assert (m <> 2 ^ prec f - 1)%Z; [|lia]. intros ->.
      rewrite Z.even_sub in Hev.
      assert (Z.even (2 ^ prec f) = true).
      { rewrite Z.even_pow by lia. reflexivity. }
      rewrite H in Hev. discriminate. }
    assert (W1 : magnitude_in f (m + 1) e).
    { repeat split; try lia. }
    pose proof (N _ _ W1) as N1. pose proof (pow2_pos e) as P.
    assert (Hstep : inject_Z (m + 1) * 2 ^ e == inject_Z m * 2 ^ e + 2 ^ e).
    { rewrite inject_Z_plus. change (inject_Z 1) with 1. ring. }
    rewrite Hstep in N1.
    set (x := inject_Z m * 2 ^ e) in *. set (y := inject_Z m' * 2 ^ e') in *. set (u := 2 ^ e) in *.
    (* q is the middle of x and y *)
    assert (Hq : q == (x + y) * (1 # 2)).
    { revert E. apply Qabs_case; apply Qabs_case; intros; lra. }
    assert (Hy : y <= x + u).
    { revert N1. apply Qabs_case; apply Qabs_case; intros; lra. }
    destruct (Z_le_gt_dec e e') as [Hee|Hee].
    - assert (Hyn : y == inject_Z (m' * 2 ^ (e' - e)) * u).
      { unfold y, u. rewrite inject_Z_mult, pow2_Z by lia.
        replace e' with (e' - e + e)%Z at 1 by lia. rewrite pow2_add. ring. }
      set (n := (m' * 2 ^ (e' - e))%Z) in *.
      assert (Hn : n = (m + 1)%Z).
      { rewrite Hyn in L, Hy. unfold x in L, Hy. fold u in L, Hy.
        apply Qmult_lt_r in L; [|exact P]. rewrite <- Zlt_Qlt in L.
        assert (Hy' : inject_Z n * u <= inject_Z (m + 1) * u)
          by (rewrite inject_Z_plus; change (inject_Z 1) with 1; lra).
        apply Qmult_le_r in Hy'; [|exact P]. rewrite <- Zle_Qle in Hy'. lia. }
      assert (Hy2 : inject_Z m' * 2 ^ e' == inject_Z (m + 1) * 2 ^ e)
        by (fold y; rewrite Hyn, Hn; reflexivity).
      destruct (magnitude_unique f _ _ _ _ (conj Hp He) W0' W1 Hy2) as [-> _].
      rewrite Z.add_1_r, Z.even_succ, <- Z.negb_even, Hev in Hev'. discriminate.
    - assert (A : (2 ^ (prec f - 1) <= m)%Z).
      { destruct (Z_lt_le_dec m (2 ^ (prec f - 1))) as [X|X]; [|exact X]. specialize (Hs X). lia. }
      assert (B : y < x); [|lra].
      apply Qlt_le_trans with (inject_Z (2 ^ prec f) * 2 ^ e').
      + unfold y. apply Qmult_lt_r; [apply pow2_pos|]. apply inject_lt. lia.
      + apply Qle_trans with (inject_Z (2 ^ (prec f - 1)) * u).
        * rewrite !pow2_Z by lia. unfold u. rewrite <- !pow2_add. apply pow2_le. lia.
        * unfold x. apply Qmult_le_compat_r; [now apply inject_le|lra]. }
  destruct (Q_dec (inject_Z m * 2 ^ e) (inject_Z m' * 2 ^ e')) as [[X|X]|X].
  - exfalso. apply (Main m e m' e'); try easy. intros n k Hk. apply (N n k Hk).
  - exfalso. apply (Main m' e' m e); try easy. intros n k Hk. apply (N' n k Hk).
  - now apply (magnitude_unique f).
Qed.

(** ** round_fmt *)

Lemma round_fmt_spec f q m e :
  sane f -> 0 < q -> round_fmt f q = (m, e) ->
  ((emax f < e)%Z <-> too_large f q) /\
  ((e <= emax f)%Z -> nearest_magnitude f q m e) /\
  Qabs (q - inject_Z m * 2 ^ e) <= (1 # 2) * 2 ^ Z.max (emin f) (ilog 2 q - prec f + 1).
Proof.
  intros Hsane Hq E. pose proof Hsane as [Hp Hee]. unfold round_fmt in E.
  destruct (ilog_spec 2 q two_le_two Hq) as [L1 L2].
  change (inject_Z 2) with 2 in L1, L2. set (L := ilog 2 q) in *.
  set (e0 := Z.max (emin f) (L - prec f + 1)) in *.
  set (s := q * 2 ^ (- e0)) in *. set (m0 := round_even s) in *.
  pose proof (double_half (prec f) ltac:(lia)) as HD.
  pose proof (half_pos (prec f) ltac:(lia)) as HH.
  set (P := (2 ^ (prec f - 1))%Z) in *.
  pose proof (pow2_pos e0) as Pe.
  assert (Hs : s * 2 ^ e0 == q) by exact (scale_eq 2 q e0 two_le_two).
  assert (Hs0 : 0 < s) by (apply (Qmult_lt_r _ _ (2 ^ e0)); [exact Pe|]; rewrite Hs; lra).
  assert (Hsu : s < inject_Z (2 ^ prec f)).
  { apply (Qmult_lt_r _ _ (2 ^ e0)); [exact Pe|]. rewrite Hs, pow2_Z, <- pow2_add by lia.
    eapply Qlt_le_trans; [exact L2|]. apply pow2_le. lia. }
  assert (Hlow : e0 = emin f \/ inject_Z P * 2 ^ e0 <= q).
  { destruct (Z_le_gt_dec (L - prec f + 1) (emin f)); [left; lia|right].
    unfold P. rewrite pow2_Z, <- pow2_add by lia. eapply Qle_trans; [|exact L1].
    apply pow2_le. lia. }
  destruct (round_even_half s) as [[R1 R2] R3]. fold m0 in R1, R2, R3.
  assert (Hm0 : (0 <= m0 <= 2 ^ prec f)%Z).
  { split; [apply round_even_ge|apply round_even_le]; [change (inject_Z 0) with 0|]; lra. }
  assert (Hm1 : e0 = emin f \/ (P <= m0)%Z).
  { destruct Hlow as [->|H]; [now left|right]. apply round_even_ge.
    apply (Qmult_le_r _ _ (2 ^ e0)); [exact Pe|]. now rewrite Hs. }
  assert (Hval : inject_Z m * 2 ^ e == inject_Z m0 * 2 ^ e0).
  { destruct (Z.eqb_spec m0 (2 ^ prec f)); inversion E; subst; [|reflexivity].
    rewrite e1, HD, inject_Z_mult, pow2_add. change (inject_Z 2) with 2. change (2 ^ 1) with 2. ring. }
  assert (Herr : Qabs (q - inject_Z m * 2 ^ e) <= (1 # 2) * 2 ^ e0).
  { rewrite Hval. apply Qabs_Qle_condition.
    set (u := 2 ^ e0) in *.
    assert (A : (inject_Z m0 - (1 # 2)) * u <= s * u) by (apply Qmult_le_compat_r; lra).
    assert (B : s * u <= (inject_Z m0 + (1 # 2)) * u) by (apply Qmult_le_compat_r; lra).
    rewrite Hs in A, B. split; lra. }
  assert (Hodd : Z.even (2 ^ prec f - 1) = false).
  { rewrite Z.even_sub, Z.even_pow by lia. reflexivity. }
  split; [|split; [|exact Herr]].
  - assert (Hfin : (emax f < e)%Z <-> (emax f < e0)%Z \/ e0 = emax f /\ m0 = (2 ^ prec f)%Z).
    { destruct (Z.eqb_spec m0 (2 ^ prec f)); inversion E; subst; lia. }
    rewrite Hfin. unfold too_large. split.
    + intros [H|[-> H]].
      * destruct Hlow as [H'|H']; [lia|]. eapply Qle_trans; [|exact H'].
        apply Qle_trans with (inject_Z P * 2 ^ (emax f + 1)).
        -- rewrite pow2_add. change (2 ^ 1) with 2. rewrite HD, inject_Z_mult.
           change (inject_Z 2) with 2. pose proof (pow2_pos (emax f)). lra.
        -- rewrite !(Qmult_comm (inject_Z P)). apply Qmult_le_compat_r; [apply pow2_le; lia|].
           change 0 with (inject_Z 0). apply inject_le. lia.
      * rewrite <- Hs, <- H. apply Qmult_le_compat_r; lra.
    + intros H. destruct (Z_lt_le_dec (emax f) e0) as [X|X]; [now left|right].
      assert (Xe : e0 = emax f).
      { destruct (Z.eq_dec e0 (emax f)) as [Y|Y]; [exact Y|]. exfalso.
        assert (A : q < inject_Z (2 ^ prec f) * 2 ^ (emax f - 1)).
        { rewrite <- Hs. eapply Qlt_le_trans; [apply Qmult_lt_r; [exact Pe|exact Hsu]|].
          rewrite !(Qmult_comm (inject_Z (2 ^ prec f))).
          apply Qmult_le_compat_r; [apply pow2_le; lia|].
          change 0 with (inject_Z 0). apply inject_le. lia. }
        replace (emax f) with (emax f - 1 + 1)%Z in H by lia. rewrite pow2_add in H.
        change (2 ^ 1) with 2 in H.
        pose proof (pow2_pos (emax f - 1)) as Pp. set (u := 2 ^ (emax f - 1)) in *.
        assert (B : 1 * u <= inject_Z (2 ^ prec f) * u).
        { apply Qmult_le_compat_r; [|lra]. change 1 with (inject_Z 1). apply inject_le. lia. }
        lra. }
      split; [exact Xe|]. rewrite <- Hs, <- Xe in H. apply Qmult_le_r in H; [|exact Pe].
      destruct (Z.eq_dec m0 (2 ^ prec f)) as [Y|Y]; [exact Y|]. exfalso.
      assert (Z1 : (m0 <= 2 ^ prec f - 1)%Z) by lia. pose proof (inject_le _ _ Z1) as Z2.
      unfold Z.sub in Z2. rewrite inject_Z_plus in Z2. change (inject_Z (- (1))) with (- (1)) in Z2.
      assert (Ez : s == inject_Z m0 + (1 # 2)) by lra.
      specialize (R3 (or_intror Ez)).
      assert (Em : m0 = (2 ^ prec f - 1)%Z).
      { assert (A : inject_Z (2 ^ prec f) <= inject_Z (m0 + 1))
          by (rewrite inject_Z_plus; change (inject_Z 1) with 1; lra).
        rewrite <- Zle_Qle in A. lia. }
      rewrite Em in R3. congruence.
  - intros Hmax.
    assert (Hin : magnitude_in f m e).
    { unfold magnitude_in. fold P.
      destruct (Z.eqb_spec m0 (2 ^ prec f)); inversion E; subst; clear E.
      - repeat split; lia.
      - repeat split; try lia. }
    split; [exact Hin|]. intros m' e' Hin'.
    pose proof Hin' as (Hm' & He' & _).
    destruct (grid_nearest 2 P (emin f) e0 q m' e' two_le_two HH ltac:(lia) ltac:(lia) ltac:(lia) Hlow)
      as [N1 N2].
    change (inject_Z 2) with 2 in N1, N2. fold s in N1, N2. fold m0 in N1, N2.
    rewrite !Hval. split; [exact N1|]. intros Eq Hne.
    assert (Hx : ~ inject_Z m0 * 2 ^ e0 == inject_Z m' * 2 ^ e').
    { intros X. apply Hne. rewrite <- Hval in X.
      destruct (magnitude_unique f m e m' e' Hsane Hin Hin' X) as [-> ->]. reflexivity. }
    specialize (N2 Eq Hx).
    destruct (Z.eqb_spec m0 (2 ^ prec f)); inversion E; subst; [|exact N2].
    unfold P. rewrite Z.even_pow by lia. reflexivity.
Qed.

(** ** digits6 *)

Lemma digits6_spec q d X :
  0 < q -> digits6 q = (d, X) ->
  nearest6 q d (X - 5) /\
  Qabs (q - inject_Z d * 10 ^ (X - 5)) <= (1 # 2) * 10 ^ (X - 5).
Proof.
  intros Hq E. unfold digits6 in E.
  destruct (ilog_spec 10 q two_le_ten Hq) as [L1 L2].
  change (inject_Z 10) with 10 in L1, L2. set (L := ilog 10 q) in *.
  replace (5 - L)%Z with (- (L - 5))%Z in E by lia.
  set (e0 := (L - 5)%Z) in *.
  set (s := q * 10 ^ (- e0)) in *. set (m0 := round_even s) in *.
  pose proof (pow10_pos e0) as Pe.
  assert (Hs : s * 10 ^ e0 == q) by exact (scale_eq 10 q e0 two_le_ten).
  assert (Hl : inject_Z 100000 * 10 ^ e0 <= q).
  { eapply Qle_trans; [|exact L1]. change (inject_Z 100000) with (10 ^ 5).
    rewrite <- pow10_add. apply pow10_le. unfold e0. lia. }
  assert (Hsl : inject_Z 100000 <= s).
  { apply (Qmult_le_r _ _ (10 ^ e0)); [exact Pe|]. now rewrite Hs. }
  assert (Hsu : s <= inject_Z 1000000).
  { apply (Qmult_le_r _ _ (10 ^ e0)); [exact Pe|]. rewrite Hs. change (inject_Z 1000000) with (10 ^ 6).
    rewrite <- pow10_add. replace (6 + e0)%Z with (L + 1)%Z by (unfold e0; lia). lra. }
  destruct (round_even_half s) as [[R1 R2] _]. fold m0 in R1, R2.
  assert (Hm0 : (100000 <= m0 <= 1000000)%Z).
  { split; [now apply round_even_ge|now apply round_even_le]. }
  assert (Hval : inject_Z d * 10 ^ (X - 5) == inject_Z m0 * 10 ^ e0).
  { destruct (Z.eqb_spec m0 1000000); inversion E; subst; clear E; [|reflexivity].
    rewrite e. replace (L + 1 - 5)%Z with (1 + e0)%Z by (unfold e0; lia). rewrite pow10_add.
    change (10 ^ 1) with 10. change (inject_Z 1000000) with (inject_Z 100000 * 10). ring. }
  assert (Herr : Qabs (q - inject_Z m0 * 10 ^ e0) <= (1 # 2) * 10 ^ e0).
  { apply Qabs_Qle_condition. set (u := 10 ^ e0) in *.
    assert (A : (inject_Z m0 - (1 # 2)) * u <= s * u) by (apply Qmult_le_compat_r; lra).
    assert (B : s * u <= (inject_Z m0 + (1 # 2)) * u) by (apply Qmult_le_compat_r; lra).
    rewrite Hs in A, B. split; lra. }
  assert (HX : (e0 <= X - 5)%Z).
  { destruct (Z.eqb_spec m0 1000000); inversion E; subst; unfold e0; lia. }
  split; [|rewrite Hval; pose proof (pow10_le _ _ HX); lra].
  split.
  { destruct (Z.eqb_spec m0 1000000); inversion E; subst; lia. }
  intros d' k' Hd'.
  destruct (grid_nearest 10 100000 (Z.min e0 k') e0 q d' k' two_le_ten ltac:(lia) ltac:(lia)
              ltac:(lia) ltac:(lia) (or_intror Hl)) as [N1 N2].
  change (inject_Z 10) with 10 in N1, N2. fold s in N1, N2. fold m0 in N1, N2.
  rewrite !Hval. split; [exact N1|]. intros Eq Hne.
  specialize (N2 Eq Hne).
  destruct (Z.eqb_spec m0 1000000); inversion E; subst; [reflexivity|exact N2].
Qed.

(** Numbers that are close to d * 10^(X-5) print with the same digits. *)
Lemma digits6_close q d X :
  (100000 <= d <= 999999)%Z ->
  Qabs (q - inject_Z d * 10 ^ (X - 5)) <= inject_Z d * 10 ^ (X - 5) * (1 # 16777216) ->
  digits6 q = (d, X).
Proof.
  intros Hd Hc. apply Qabs_Qle_condition in Hc.
  pose proof (pow10_pos (X - 5)) as Pu. set (u := 10 ^ (X - 5)) in *.
  assert (D1 : inject_Z 100000 * u <= inject_Z d * u)
    by (apply Qmult_le_compat_r; [apply inject_le; lia|lra]).
  assert (D2 : inject_Z d * u <= inject_Z 999999 * u)
    by (apply Qmult_le_compat_r; [apply inject_le; lia|lra]).
  change (inject_Z 100000) with 100000 in D1. change (inject_Z 999999) with 999999 in D2.
  assert (Hq : 0 < q) by lra.
  assert (HX : 10 ^ X == 100000 * u).
  { unfold u. change 100000 with (10 ^ 5). rewrite <- pow10_add. replace (5 + (X - 5))%Z with X by lia.
    reflexivity. }
  assert (HX1 : 10 ^ (X + 1) == 1000000 * u).
  { rewrite pow10_add, HX. change (10 ^ 1) with 10. ring. }
  assert (HXm : 10 ^ (X - 1) == 10000 * u).
  { unfold u. change 10000 with (10 ^ 4). rewrite <- pow10_add.
    replace (4 + (X - 5))%Z with (X - 1)%Z by lia. reflexivity. }
  unfold digits6.
  destruct (Qlt_le_dec q (10 ^ X)) as [C|C].
  - (* just below a power of ten *)
    assert (Ed : d = 100000%Z).
    { destruct (Z.eq_dec d 100000) as [Y|Y]; [exact Y|]. exfalso.
      assert (A : inject_Z 100001 * u <= inject_Z d * u)
        by (apply Qmult_le_compat_r; [apply inject_le; lia|lra]).
      change (inject_Z 100001) with 100001 in A. lra. }
    subst d. change (inject_Z 100000) with 100000 in Hc.
    rewrite (ilog_unique 10 q (X - 1) two_le_ten); change (inject_Z 10) with 10;
      [|lra|replace (X - 1 + 1)%Z with X by lia; exact C].
    assert (Hm : round_even (q * 10 ^ (5 - (X - 1))) = 1000000%Z).
    { replace (5 - (X - 1))%Z with (- (X - 6))%Z by lia.
      assert (Hu6 : u == 10 * 10 ^ (X - 6)).
      { unfold u. replace (X - 5)%Z with (1 + (X - 6))%Z by lia. rewrite pow10_add. reflexivity. }
      pose proof (pow10_pos (X - 6)) as P6.
      assert (Hs : q * 10 ^ (- (X - 6)) * 10 ^ (X - 6) == q) by exact (scale_eq 10 q (X - 6) two_le_ten).
      apply round_even_unique; change (inject_Z 1000000) with 1000000;
        apply (Qmult_lt_r _ _ (10 ^ (X - 6))); try exact P6; rewrite Hs; lra. }
    rewrite Hm. cbn [Z.eqb Pos.eqb]. f_equal. lia.
  - rewrite (ilog_unique 10 q X two_le_ten); change (inject_Z 10) with 10; [|exact C|lra].
    assert (Hm : round_even (q * 10 ^ (5 - X)) = d).
    { replace (5 - X)%Z with (- (X - 5))%Z by lia.
      assert (Hs : q * 10 ^ (- (X - 5)) * 10 ^ (X - 5) == q) by exact (scale_eq 10 q (X - 5) two_le_ten).
      apply round_even_unique; apply (Qmult_lt_r _ _ (10 ^ (X - 5))); try exact Pu; rewrite Hs;
        fold u; lra. }
    rewrite Hm. destruct (Z.eqb_spec d 1000000); [lia|reflexivity].
Qed.
