(** Rounding of rationals: lemmas about [round_even], [ilog] and [down]. *)
From Coq Require Import ZArith QArith Qround Qpower Qabs Lqa Lia Bool.
From Verif Require Import FloatConv.
Local Open Scope Q_scope.

(** ** Powers *)

Lemma pow_pos b k : (2 <= b)%Z -> 0 < inject_Z b ^ k.
Proof. intros Hb. apply Qpower_0_lt. change 0 with (inject_Z 0). rewrite <- Zlt_Qlt. lia. Qed.

Lemma base_gt1 b : (2 <= b)%Z -> 1 < inject_Z b.
Proof. intros Hb. change 1 with (inject_Z 1). rewrite <- Zlt_Qlt. lia. Qed.

Lemma pow_add b i j : (2 <= b)%Z -> inject_Z b ^ (i + j) == inject_Z b ^ i * inject_Z b ^ j.
Proof.
  intros Hb. apply Qpower_plus. pose proof (base_gt1 b Hb) as H. intros E. rewrite E in H. lra.
Qed.

Lemma pow_inv b k : (2 <= b)%Z -> inject_Z b ^ (- k) * inject_Z b ^ k == 1.
Proof. intros Hb. rewrite <- pow_add by easy. replace (- k + k)%Z with 0%Z by lia. reflexivity. Qed.

Lemma pow_le b i j : (2 <= b)%Z -> (i <= j)%Z -> inject_Z b ^ i <= inject_Z b ^ j.
Proof. intros Hb H. apply Qpower_le_compat_l; [easy|]. pose proof (base_gt1 b Hb). lra. Qed.

Lemma pow_lt b i j : (2 <= b)%Z -> (i < j)%Z -> inject_Z b ^ i < inject_Z b ^ j.
Proof. intros Hb H. apply Qpower_lt_compat_l; [easy|]. now apply base_gt1. Qed.

Lemma pow_lt_inv b i j : (2 <= b)%Z -> inject_Z b ^ i < inject_Z b ^ j -> (i < j)%Z.
Proof. intros Hb H. eapply Qpower_lt_compat_l_inv; [exact H|]. now apply base_gt1. Qed.

Lemma pow_Z b k : (0 <= k)%Z -> inject_Z (b ^ k) == inject_Z b ^ k.
Proof. apply Zpower_Qpower. Qed.

(** Multiplying and dividing by the same power. *)
Lemma scale_eq b q k : (2 <= b)%Z -> q * inject_Z b ^ (- k) * inject_Z b ^ k == q.
Proof. intros Hb. rewrite <- Qmult_assoc, pow_inv by easy. ring. Qed.

Lemma scale_le b x q k : (2 <= b)%Z ->
  x <= q * inject_Z b ^ (- k) <-> x * inject_Z b ^ k <= q.
Proof.
  intros Hb. rewrite <- (Qmult_le_r _ _ (inject_Z b ^ k)) by now apply pow_pos.
  rewrite scale_eq by easy. reflexivity.
Qed.

Lemma scale_ge b x q k : (2 <= b)%Z ->
  q * inject_Z b ^ (- k) <= x <-> q <= x * inject_Z b ^ k.
Proof.
  intros Hb. rewrite <- (Qmult_le_r _ _ (inject_Z b ^ k)) by now apply pow_pos.
  rewrite scale_eq by easy. reflexivity.
Qed.

Lemma scale_gt b x q k : (2 <= b)%Z ->
  q * inject_Z b ^ (- k) < x <-> q < x * inject_Z b ^ k.
Proof.
  intros Hb. rewrite <- (Qmult_lt_r _ _ (inject_Z b ^ k)) by now apply pow_pos.
  rewrite scale_eq by easy. reflexivity.
Qed.

(** ** round_even *)

Lemma round_even_comp q q' : q == q' -> round_even q = round_even q'.
Proof.
  intros E. unfold round_even. rewrite (Qfloor_comp _ _ E).
  assert (Hc : (q - inject_Z (Qfloor q') ?= 1 # 2) = (q' - inject_Z (Qfloor q') ?= 1 # 2)).
  { apply Qcompare_comp; [now rewrite E|reflexivity]. }
  now rewrite Hc.
Qed.

Lemma round_even_half q :
  inject_Z (round_even q) - (1 # 2) <= q <= inject_Z (round_even q) + (1 # 2) /\
  (q == inject_Z (round_even q) - (1 # 2) \/ q == inject_Z (round_even q) + (1 # 2) ->
   Z.even (round_even q) = true).
Proof.
  pose proof (Qfloor_le q) as H1. pose proof (Qlt_floor q) as H2.
  rewrite inject_Z_plus in H2. change (inject_Z 1) with 1 in H2.
  unfold round_even. destruct (Qcompare_spec (q - inject_Z (Qfloor q)) (1 # 2)) as [E|L|G].
  - destruct (Z.even (Qfloor q)) eqn:Ev.
    + split; [split; lra|easy].
    + rewrite inject_Z_plus. change (inject_Z 1) with 1. split; [split; lra|].
      intros _. rewrite Z.add_1_r, Z.even_succ, <- Z.negb_even, Ev. reflexivity.
  - split; [split; lra|]. intros [H|H]; exfalso; lra.
  - rewrite inject_Z_plus. change (inject_Z 1) with 1. split; [split; lra|].
    intros [H|H]; exfalso; lra.
Qed.

Lemma Z_apart a b : a <> b -> inject_Z a + 1 <= inject_Z b \/ inject_Z b + 1 <= inject_Z a.
Proof.
  intros H. change 1 with (inject_Z 1). rewrite <- !inject_Z_plus, <- !Zle_Qle. lia.
Qed.

(** The nearest integer, even if there are two. *)
Lemma round_even_nearest q n :
  Qabs (q - inject_Z (round_even q)) <= Qabs (q - inject_Z n) /\
  (Qabs (q - inject_Z (round_even q)) == Qabs (q - inject_Z n) -> n <> round_even q ->
   Z.even (round_even q) = true).
Proof.
  destruct (round_even_half q) as [[H1 H2] H3].
  destruct (Z.eq_dec n (round_even q)) as [->|Hn].
  { split; [lra|easy]. }
  assert (Hh : Qabs (q - inject_Z (round_even q)) <= 1 # 2)
    by (apply Qabs_Qle_condition; split; lra).
  assert (Hg : (1 # 2) <= Qabs (q - inject_Z n)).
  { destruct (Z_apart _ _ Hn) as [A|A].
    - rewrite Qabs_pos by lra. lra.
    - rewrite Qabs_neg by lra. lra. }
  split; [lra|]. intros E _.
  assert (Hx : Qabs (q - inject_Z (round_even q)) == 1 # 2) by lra.
  apply H3. revert Hx. apply Qabs_case; intros; [right|left]; lra.
Qed.

(** An integer closer than a half is the result. *)
Lemma round_even_unique q n :
  inject_Z n - (1 # 2) < q -> q < inject_Z n + (1 # 2) -> round_even q = n.
Proof.
  intros H1 H2. destruct (round_even_half q) as [[H3 H4] _].
  destruct (Z.eq_dec (round_even q) n) as [E|E]; [exact E|].
  destruct (Z_apart _ _ E); lra.
Qed.

Lemma round_even_ge q n : inject_Z n <= q -> (n <= round_even q)%Z.
Proof.
  intros H. destruct (round_even_half q) as [[_ H2] _].
  destruct (Z_lt_le_dec (round_even q) n) as [L|L]; [|easy]. exfalso.
  assert (A : (round_even q + 1 <= n)%Z) by lia.
  rewrite Zle_Qle, inject_Z_plus in A. change (inject_Z 1) with 1 in A. lra.
Qed.

Lemma round_even_le q n : q <= inject_Z n -> (round_even q <= n)%Z.
Proof.
  intros H. destruct (round_even_half q) as [[H1 _] _].
  destruct (Z_lt_le_dec n (round_even q)) as [L|L]; [|easy]. exfalso.
  assert (A : (n + 1 <= round_even q)%Z) by lia.
  rewrite Zle_Qle, inject_Z_plus in A. change (inject_Z 1) with 1 in A. lra.
Qed.

(** ** ilog *)

Lemma down_spec b q (Hb : (2 <= b)%Z) fuel k :
  q < inject_Z b ^ (k + 1) -> inject_Z b ^ (k - Z.of_nat fuel + 1) <= q -> (0 < fuel)%nat ->
  inject_Z b ^ down fuel b k q <= q < inject_Z b ^ (down fuel b k q + 1).
Proof.
  revert k. induction fuel as [|n IH]; intros k Hu Hl Hf; [lia|].
  cbn [down]. destruct (Qle_bool (inject_Z b ^ k) q) eqn:E.
  - apply Qle_bool_iff in E. now split.
  - assert (E' : q < inject_Z b ^ k).
    { apply Qnot_le_lt. intros H. apply Qle_bool_iff in H. congruence. }
    destruct n as [|n].
    + exfalso. replace (k - Z.of_nat 1 + 1)%Z with k in Hl by lia. lra.
    + apply IH; [|replace (k - 1 - Z.of_nat (S n) + 1)%Z with (k - Z.of_nat (S (S n)) + 1)%Z by lia|lia].
      * replace (k - 1 + 1)%Z with k by lia. exact E'.
      * exact Hl.
Qed.

Lemma pow_base b k : (2 <= b)%Z -> (0 <= k)%Z -> 2 ^ k <= inject_Z b ^ k.
Proof.
  intros Hb Hk. change 2 with (inject_Z 2). rewrite <- !pow_Z by easy. rewrite <- Zle_Qle.
  apply Z.pow_le_mono_l. lia.
Qed.

Lemma ilog_spec b q : (2 <= b)%Z -> 0 < q ->
  inject_Z b ^ ilog b q <= q < inject_Z b ^ (ilog b q + 1).
Proof.
  intros Hb Hq. unfold ilog.
  destruct q as [n d]. cbn [Qnum Qden] in *.
  assert (Hn : (0 < n)%Z) by (unfold Qlt in Hq; cbn in Hq; lia).
  pose proof (Z.log2_nonneg n) as Ln. pose proof (Z.log2_nonneg (Zpos d)) as Ld.
  destruct (Z.log2_spec n Hn) as [_ Un].
  destruct (Z.log2_spec (Zpos d) ltac:(lia)) as [_ Ud].
  apply down_spec; [exact Hb| | |lia].
  - apply Qlt_le_trans with (inject_Z (2 ^ (Z.log2 n + 1 + 1))).
    + apply Qle_lt_trans with (inject_Z n).
      * unfold Qle, inject_Z; cbn. nia.
      * rewrite <- Zlt_Qlt. apply Z.lt_le_trans with (1 := Un). apply Z.pow_le_mono_r; lia.
    + rewrite pow_Z by lia. apply pow_base; lia.
  - rewrite Z2Nat.id by lia.
    replace (Z.log2 n + 1 - (Z.log2 n + Z.log2 (Z.pos d) + 3) + 1)%Z
      with (- (Z.log2 (Z.pos d) + 1))%Z by lia.
    apply (Qmult_le_r _ _ (inject_Z b ^ (Z.log2 (Z.pos d) + 1))); [now apply pow_pos|].
    rewrite pow_inv by easy.
    assert (B : inject_Z (Zpos d) <= inject_Z b ^ (Z.log2 (Z.pos d) + 1)).
    { eapply Qle_trans; [|apply pow_base; lia]. change 2 with (inject_Z 2).
      rewrite <- pow_Z by lia. rewrite <- Zle_Qle. rewrite <- Z.add_1_r in Ud. lia. }
    apply Qle_trans with ((n # d) * inject_Z (Zpos d)).
    + unfold Qle, Qmult, inject_Z; cbn. nia.
    + rewrite !(Qmult_comm (n # d)). apply Qmult_le_compat_r; [exact B|lra].
Qed.

Lemma ilog_unique b q k : (2 <= b)%Z ->
  inject_Z b ^ k <= q -> q < inject_Z b ^ (k + 1) -> ilog b q = k.
Proof.
  intros Hb H1 H2. assert (Hq : 0 < q) by (pose proof (pow_pos b k Hb); lra).
  destruct (ilog_spec b q Hb Hq) as [H3 H4].
  assert (A : (ilog b q < k + 1)%Z) by (apply (pow_lt_inv b); [easy|lra]).
  assert (B : (k < ilog b q + 1)%Z) by (apply (pow_lt_inv b); [easy|lra]).
  lia.
Qed.

(** ** Rounding to a grid *)

(** Numbers m * b^e with m < b * P, on the interval where e is the right exponent: rounding
    q * b^-e gives the nearest of all of them. *)
Lemma grid_nearest b P lo e q m' e' :
  (2 <= b)%Z -> (1 <= P)%Z -> (lo <= e)%Z -> (lo <= e')%Z -> (0 <= m' < b * P)%Z ->
  e = lo \/ inject_Z P * inject_Z b ^ e <= q ->
  let m := round_even (q * inject_Z b ^ (- e)) in
  let x := inject_Z m * inject_Z b ^ e in
  let y := inject_Z m' * inject_Z b ^ e' in
  Qabs (q - x) <= Qabs (q - y) /\
  (Qabs (q - x) == Qabs (q - y) -> ~ x == y -> Z.even m = true).
Proof.
  intros Hb HP Hlo Hlo' Hm' Hq m x y.
  pose proof (pow_pos b e Hb) as Hu.
  assert (Hs : q == q * inject_Z b ^ (- e) * inject_Z b ^ e) by (now rewrite scale_eq).
  assert (Habs : forall n, Qabs (q - inject_Z n * inject_Z b ^ e) ==
                           Qabs (q * inject_Z b ^ (- e) - inject_Z n) * inject_Z b ^ e).
  { intros n. rewrite <- (Qabs_pos (inject_Z b ^ e)) at 2 by lra. rewrite <- Qabs_Qmult.
    apply Qabs_wd. rewrite Hs at 1. ring. }
  destruct (Z_le_gt_dec e e') as [Hee|Hee].
  - set (n := (m' * b ^ (e' - e))%Z).
    assert (Hy : y == inject_Z n * inject_Z b ^ e).
    { unfold y, n. rewrite inject_Z_mult, pow_Z by lia.
      replace e' with (e' - e + e)%Z at 1 by lia. rewrite pow_add by easy. ring. }
    destruct (round_even_nearest (q * inject_Z b ^ (- e)) n) as [N1 N2]. fold m in N1, N2.
    rewrite Hy. unfold x. rewrite !Habs. split.
    + now apply Qmult_le_compat_r; [|lra].
    + intros E Hne. apply N2.
      * apply Qmult_inj_r in E; [exact E|]. intros Z0. rewrite Z0 in Hu. lra.
      * intros ->. apply Hne. reflexivity.
  - destruct Hq as [->|Hq]; [lia|].
    assert (Hy : y < inject_Z P * inject_Z b ^ e).
    { apply Qlt_le_trans with (inject_Z (b * P) * inject_Z b ^ e').
      - unfold y. apply Qmult_lt_r; [now apply pow_pos|]. rewrite <- Zlt_Qlt. lia.
      - rewrite inject_Z_mult, (Qmult_comm (inject_Z b)), <- Qmult_assoc.
        rewrite (Qmult_comm (inject_Z P)), (Qmult_comm (inject_Z P)).
        apply Qmult_le_compat_r; [|change 0 with (inject_Z 0); rewrite <- Zle_Qle; lia].
        rewrite <- (Qpower_1_r (inject_Z b)) at 1. rewrite <- pow_add by easy.
        apply pow_le; [easy|lia]. }
    destruct (round_even_nearest (q * inject_Z b ^ (- e)) P) as [N1 _]. fold m in N1.
    assert (Hx : Qabs (q - x) <= q - inject_Z P * inject_Z b ^ e).
    { unfold x. rewrite Habs.
      eapply Qle_trans; [apply Qmult_le_compat_r; [exact N1|lra]|].
      rewrite <- Habs. rewrite Qabs_pos by lra. lra. }
    rewrite (Qabs_pos (q - y)) by lra. split; [lra|]. intros E. exfalso. lra.
Qed.
