(** C87: the texts of floating-point numbers. *)
From Coq Require Import Ascii String NArith ZArith QArith Qabs Lqa Bool PeanoNat Lia List.
Import ListNotations.
From Verif Require Import Base LexerSpec StringConv StringConvSpec StringConvProofs FloatConv FloatConvSpec FloatRound FloatScan FloatConvProofs
  FloatRoundTrip UserTypesSpec FloatOps FloatOpsProofs P_Float FloatTextSpec FloatTextProofs.

Local Notation length := List.length.
Local Open Scope Q_scope.

Lemma value_nonneg f v : value_in f v -> forall neg m e, v = Fin neg m e -> (0 <= m)%Z.
Proof. intros H neg m e ->. destruct H. lia. Qed.

(** What %g writes for a value of any format is exactly what the specification says. *)
Theorem C87_general_iff : forall f v s, value_in f v -> (printf_g v = s <-> shows_general v s).
Proof. intros f v s H. apply printf_g_iff. exact (value_nonneg f v H). Qed.

Lemma shows_bound f v s B : value_in f v ->
  (toStringF v = lit "0" <-> exists q, stands_for v q /\ Qabs q < B) -> (toStringF v = s <-> shows B v s).
Proof.
  intros H Z. destruct v as [neg m e|neg|neg].
  - cbn in H. assert (Hm : (0 <= m)%Z) by (destruct H; lia). destruct (stands_ex neg m e) as (q & Hq).
    assert (A := stands_abs _ _ _ _ Hm Hq). destruct (Qlt_le_dec (Qabs q) B) as [L|L].
    + assert (T : toStringF (Fin neg m e) = lit "0") by (apply Z; now exists q). rewrite T. split.
      * intros <-. exact (shows_tiny B _ q Hq L).
      * intros S. destruct S as [q' Hq' L'|s Ge _]; [reflexivity|]. specialize (Ge q Hq). lra.
    + assert (Ge : forall q', stands_for (Fin neg m e) q' -> B <= Qabs q').
      { intros q' Hq'. rewrite (stands_abs _ _ _ _ Hm Hq'). now rewrite A in L. }
      assert (T : toStringF (Fin neg m e) = printf_g (Fin neg m e)).
      { destruct (Qlt_le_dec (dyadic m e) lit_1e_6) as [K|K].
        - exfalso. assert (T := toString_small neg m e Hm K). apply Z in T. destruct T as (q' & Hq' & L'). specialize (Ge q' Hq'). lra.
        - rewrite toString_large by assumption. cbn [printf_g]. destruct (Z.eqb_spec m 0) as [->|]; [|reflexivity].
          exfalso. assert (P := lit_pos). unfold dyadic in K. change (inject_Z 0) with 0 in K. lra. }
      rewrite T, (printf_g_iff _ _ (value_nonneg f (Fin neg m e) H)). split.
      * intros S. now apply shows_other.
      * intros S. destruct S as [q' Hq' L'|s _ S]; [specialize (Ge q' Hq'); lra|exact S].
  - change (toStringF (Inf neg)) with (printf_g (Inf neg)). rewrite (printf_g_iff _ _ (value_nonneg f (Inf neg) H)). split.
    + intros S. apply shows_other; [|exact S]. intros q Hq. inversion Hq.
    + intros S. destruct S as [q Hq _|s _ S]; [inversion Hq|exact S].
  - change (toStringF (NaN neg)) with (printf_g (NaN neg)). rewrite (printf_g_iff _ _ (value_nonneg f (NaN neg) H)). split.
    + intros S. apply shows_other; [|exact S]. intros q Hq. inversion Hq.
    + intros S. destruct S as [q Hq _|s _ S]; [inversion Hq|exact S].
Qed.

(** The text of a float. *)
Theorem C87_float_iff : forall v s, value_in binary32 v -> (toStringF v = s <-> shows millionth v s).
Proof. intros v s H. apply (shows_bound binary32 v s millionth H). exact (C49_float v H). Qed.

(** The text of a value of any format. *)
Theorem C87_any_iff : forall f v s, value_in f v -> (toStringF v = s <-> shows nearly_millionth v s).
Proof. intros f v s H. apply (shows_bound f v s nearly_millionth H). exact (C49_zero_text f v H). Qed.

(** There is one text for every value. *)
Theorem C87_one_text : forall f v, value_in f v ->
  exists s, shows nearly_millionth v s /\ forall t, shows nearly_millionth v t -> t = s.
Proof.
  intros f v H. exists (toStringF v). split; [now apply (C87_any_iff f)|]. intros t S. symmetry. now apply (C87_any_iff f).
Qed.

(** ** Whole numbers *)

Lemma exact_nearest6 q d k : (100000 <= d <= 999999)%Z -> q == inject_Z d * 10 ^ k -> nearest6 q d k.
Proof.
  intros H E. split; [exact H|]. intros d' k' _.
  assert (Z : Qabs (q - inject_Z d * 10 ^ k) == 0) by (rewrite E; setoid_replace (inject_Z d * 10 ^ k - inject_Z d * 10 ^ k) with 0 by ring; reflexivity).
  split.
  - rewrite Z. apply Qabs_nonneg.
  - intros A N. exfalso. rewrite Z in A. apply N. rewrite <- E. revert A. apply Qabs_case; intros; lra.
Qed.

Lemma six_scale z : (0 < z <= 999999)%Z -> exists j, (0 <= j <= 5)%Z /\ (100000 <= z * 10 ^ j <= 999999)%Z.
Proof.
  intros H. destruct (Z_lt_le_dec z 10); [exists 5%Z; cbn; lia|]. destruct (Z_lt_le_dec z 100); [exists 4%Z; cbn; lia|].
  destruct (Z_lt_le_dec z 1000); [exists 3%Z; cbn; lia|]. destruct (Z_lt_le_dec z 10000); [exists 2%Z; cbn; lia|].
  destruct (Z_lt_le_dec z 100000); [exists 1%Z; cbn; lia|]. exists 0%Z; cbn; lia.
Qed.

(** Whole numbers of up to six digits are written as integers. *)
Theorem C87_whole : forall f v z s, value_in f v -> stands_for v (inject_Z z) -> (Z.abs z <= 999999)%Z ->
  (toStringF v = s <-> canonical z s).
Proof.
  intros f v z s H Hz B. enough (C : canonical z (toStringF v)).
  { split; [now intros <-|]. intros C'. exact (canonical_same _ _ _ C C'). }
  enough (S : exists t, canonical z t /\ shows nearly_millionth v t).
  { destruct S as (t & C & S). apply (C87_any_iff f) in S; [|exact H]. now rewrite S. }
  destruct (Z.eq_dec z 0) as [->|Nz].
  { exists (lit "0"). split; [constructor|]. apply (shows_tiny _ _ _ Hz). now vm_compute. }
  destruct v as [neg m e|neg|neg]; [|inversion Hz..]. cbn in H. assert (Hm : (0 <= m)%Z) by (destruct H; lia).
  assert (A := stands_abs _ _ _ _ Hm Hz). change (Qabs (inject_Z z)) with (inject_Z (Z.abs z)) in A.
  destruct (six_scale (Z.abs z) ltac:(lia)) as (j & Hj & Hd).
  assert (E : dyadic m e == inject_Z (Z.abs z * 10 ^ j) * 10 ^ (- j)).
  { rewrite <- A, inject_Z_mult, pow10_Z, <- Qmult_assoc, <- pow10_add by lia. rewrite Z.add_opp_diag_r. change (10 ^ 0) with 1. ring. }
  assert (Mp : (0 < m)%Z).
  { destruct (Z.eq_dec m 0) as [->|]; [|lia]. exfalso. unfold dyadic in A. change (inject_Z 0) with 0 in A. rewrite Qmult_0_l in A.
    apply (proj1 (inject_Z_injective _ 0)) in A. lia. }
  assert (Zn : z = (if neg then - Z.abs z else Z.abs z)%Z).
  { assert (D := dyadic_pos m e Mp). inversion Hz as [? ? ? X|? ? ? X]; subst; fold (dyadic m e) in X.
    - rewrite <- X in D. change 0 with (inject_Z 0) in D. rewrite <- Zlt_Qlt in D. lia.
    - assert (D' : inject_Z z < 0) by lra. change 0 with (inject_Z 0) in D'. rewrite <- Zlt_Qlt in D'. lia. }
  exists (sign_text neg ++ dec (Z.abs z)). assert (Ca := dec_canonical (Z.abs z) (Z.abs_nonneg z)). split.
  { rewrite Zn at 1. destruct neg; [|exact Ca]. apply (canonical_neg (Z.abs z)); [lia|exact Ca]. }
  apply shows_other.
  { intros q Hq. rewrite (stands_abs _ _ _ _ Hm Hq), <- A. apply Qle_trans with 1; [apply Qle_bool_iff; now vm_compute|]. apply (inject_le 1). lia. }
  apply (shows_general_number neg m e (Z.abs z * 10 ^ j) (- j)); [exact Mp|exact (exact_nearest6 _ _ _ Hd E)|].
  rewrite <- (app_nil_r (dec (Z.abs z))). apply (general_plain _ _ (Z.abs z) _ [] [] (Z.abs z)); [lia|exact Ca|constructor| |].
  - rewrite app_nil_r. apply canonical_digits; [lia|exact Ca].
  - rewrite <- E, <- A. cbn [length]. change (10 ^ (- Z.of_nat 0)) with 1. ring.
Qed.

(** ** Numbers with a fraction or an exponent *)

(** The text is the number itself if it has at most six significant digits. *)
Theorem C87_exact : forall f v d k s, value_in f v -> stands_for v (inject_Z d * 10 ^ k) ->
  (100000 <= d <= 999999)%Z -> (-11 <= k)%Z -> (toStringF v = s <-> general_text d k s).
Proof.
  intros f v d k s H Hs Hd Hk. destruct v as [neg m e|neg|neg]; [|inversion Hs..]. pose proof H as Hv. cbn in H.
  assert (Hm : (0 <= m)%Z) by (destruct H; lia). assert (A := stands_abs _ _ _ _ Hm Hs).
  assert (P := pow10_pos k). assert (Dp := inject_lt 0 d ltac:(lia)). change (inject_Z 0) with 0 in Dp.
  assert (Vp : 0 < inject_Z d * 10 ^ k) by (apply Qmult_lt_0_compat; assumption).
  rewrite Qabs_pos in A by lra.
  assert (Ng : neg = false).
  { destruct neg; [|reflexivity]. inversion Hs as [|? ? ? X]; subst. fold (dyadic m e) in X.
    assert (D := dyadic_nonneg m e Hm). lra. }
  subst neg.
  assert (Mp : (0 < m)%Z).
  { destruct (Z.eq_dec m 0) as [->|]; [|lia]. exfalso. unfold dyadic in A. change (inject_Z 0) with 0 in A. lra. }
  assert (G := written d k Hd). assert (N : nearest6 (dyadic m e) d k) by (apply exact_nearest6; [exact Hd|now symmetry]).
  enough (T : toStringF (Fin false m e) = g_digits d (k + 5)).
  { rewrite T. split; [now intros <-|]. intros G'. exact (general_unique _ _ _ _ G G'). }
  apply (C87_any_iff f); [exact Hv|]. apply shows_other.
  - intros q Hq. rewrite (stands_abs _ _ _ _ Hm Hq), <- A. apply Qle_trans with (inject_Z 100000 * 10 ^ (-11)); [apply Qle_bool_iff; now vm_compute|].
    apply Qle_trans with (inject_Z d * 10 ^ (-11)).
    + apply Qmult_le_compat_r; [apply inject_le; lia|]. assert (Q := pow10_pos (-11)). lra.
    + apply Qmult_le_l; [exact Dp|]. apply pow10_le. exact Hk.
  - exact (shows_general_number false m e d k _ Mp N G).
Qed.

(** ** Examples *)

Example C87_ex_texts :
  shows millionth (Fin false 13107200 (-17)) (lit "100") /\ shows millionth (Fin true 10485760 (-22)) (lit "-2.5") /\
  shows millionth (Fin false 16000000 (-4)) (lit "1e+06") /\ shows millionth (Fin false 13421773 (-27)) (lit "0.1") /\
  shows millionth (Fin true 0 (-149)) (lit "0") /\ shows millionth (Inf true) (lit "-inf").
Proof.
  split; [|split; [|split; [|split; [|split]]]]; (apply C87_float_iff; [|now vm_compute]); first [exact Logic.I|repeat split; cbn; lia].
Qed.

(** The hypotheses of C87_whole and C87_exact, and what they give. *)
Example C87_ex_whole : forall s, toStringF (Fin true 13107200 (-17)) = s <-> canonical (-100) s.
Proof.
  intros s. apply (C87_whole binary32); [repeat split; cbn; lia| |cbn; lia]. apply stands_neg. now vm_compute.
Qed.
Example C87_ex_exact : general_text 250000 (-5) (lit "2.5").
Proof.
  apply (C87_exact binary32 (Fin false 10485760 (-22))); [repeat split; cbn; lia| |lia|lia|now vm_compute].
  apply stands_pos. now vm_compute.
Qed.
Example C87_ex_exponent : general_text 100000 1 (lit "1e+06").
Proof.
  apply (C87_exact binary32 (Fin false 16000000 (-4))); [repeat split; cbn; lia| |lia|lia|now vm_compute].
  apply stands_pos. now vm_compute.
Qed.
(** Another text of the same number is none of this value. *)
Example C87_ex_other : ~ general_text 250000 (-5) (lit "2.50").
Proof. intros H. discriminate (general_unique _ _ _ _ H C87_ex_exact). Qed.

(** * Assumptions *)
Print Assumptions C87_general_iff.
Print Assumptions C87_float_iff.
Print Assumptions C87_any_iff.
Print Assumptions C87_one_text.
Print Assumptions C87_whole.
Print Assumptions C87_exact.
