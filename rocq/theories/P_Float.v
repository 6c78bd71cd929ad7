(** C49, C56-C58: conversions between text and floating-point numbers. *)
From Coq Require Import Ascii String NArith ZArith QArith Qround Qpower Qabs Lqa Bool PeanoNat Lia List.
Import ListNotations.
From Verif Require Import Base StringConv StringConvSpec StringConvProofs SerializerSpec
  FloatConv FloatConvSpec FloatArith FloatRound FloatScan FloatConvProofs FloatRoundTrip.
Local Open Scope Q_scope.

(** * C49: which values are printed as 0 *)

Lemma stands_abs neg m e q : (0 <= m)%Z -> stands_for (Fin neg m e) q -> Qabs q == dyadic m e.
Proof.
  intros Hm H. pose proof (dyadic_nonneg m e Hm) as P. unfold dyadic in *.
  inversion H as [? ? ? Hx|? ? ? Hx]; subst.
  - rewrite Hx. now rewrite Qabs_pos.
  - rewrite Hx, Qabs_opp. now rewrite Qabs_pos.
Qed.

Lemma stands_ex neg m e : exists q, stands_for (Fin neg m e) q.
Proof. destruct neg; eexists; constructor; reflexivity. Qed.

Lemma special_not_zero v : (forall neg m e, v <> Fin neg m e) -> toStringF v <> lit "0".
Proof.
  destruct v as [neg m e|neg|neg]; intros H; [exfalso; now apply (H neg m e)|..]; destruct neg; discriminate.
Qed.

(** The condition for a bound [B] such that no value of the format lies between the literal
    and [B]. *)
Lemma zero_text_bound f v B : value_in f v ->
  (forall m e, magnitude_in f m e -> dyadic m e < lit_1e_6 <-> dyadic m e < B) ->
  (toStringF v = lit "0" <-> exists q, stands_for v q /\ Qabs q < B).
Proof.
  intros Hv HB. destruct v as [neg m e|neg|neg].
  - cbn in Hv. assert (Hm : (0 <= m)%Z) by (destruct Hv; lia). specialize (HB m e Hv). split.
    + intros H. destruct (Qlt_le_dec (dyadic m e) lit_1e_6) as [L|L].
      * destruct (stands_ex neg m e) as [q Hq]. exists q. split; [exact Hq|].
        rewrite (stands_abs _ _ _ _ Hm Hq). now apply HB.
      * exfalso. rewrite toString_large in H by easy.
        eapply minus_g_not_zero; [|exact H]. pose proof lit_pos. lra.
    + intros (q & Hq & L). rewrite (stands_abs _ _ _ _ Hm Hq) in L. apply toString_small; [easy|].
      now apply HB.
  - split; [intros H; now apply special_not_zero in H|]. intros (q & Hq & _). inversion Hq.
  - split; [intros H; now apply special_not_zero in H|]. intros (q & Hq & _). inversion Hq.
Qed.

(** A value of any format is printed as 0 exactly if its magnitude is below the double that
    the literal 1e-6 denotes. *)
Theorem C49_zero_text f v : value_in f v ->
  (toStringF v = lit "0" <->
   exists q, stands_for v q /\ Qabs q < inject_Z 4722366482869645 * 2 ^ (-72)).
Proof. intros Hv. apply (zero_text_bound f v _ Hv). reflexivity. Qed.

Theorem C49_literal :
  nearest_magnitude binary64 (1 # 1000000) 4722366482869645 (-72) /\
  inject_Z 4722366482869645 * 2 ^ (-72) < 1 # 1000000.
Proof.
  split; [|apply Qltb_iff; now vm_compute].
  apply nearest_round.
  - unfold sane; cbn; lia.
  - reflexivity.
  - unfold too_large. apply Qlt_not_le. apply Qltb_iff. now vm_compute.
  - now vm_compute.
Qed.

(** Values with significand below 2^p that are at least 2^-20 are multiples of 2^-(19+p). *)
Lemma as_multiple p m e k : (0 <= m < 2 ^ p)%Z -> (0 <= p)%Z -> 2 ^ (-20) <= dyadic m e ->
  (k <= - 20 - p + 1)%Z -> exists n, dyadic m e == inject_Z n * 2 ^ k.
Proof.
  intros Hm Hp H Hk.
  assert (K : (k <= e)%Z).
  { assert (A : dyadic m e < 2 ^ (p + e)).
    { rewrite pow2_add, <- pow2_Z by easy. apply Qmult_lt_r; [apply pow2_pos|]. apply inject_lt. lia. }
    assert (B : 2 ^ (-20) < 2 ^ (p + e)) by lra.
    apply (pow_lt_inv 2 _ _ two_le_two) in B. lia. }
  exists (m * 2 ^ (e - k))%Z. unfold dyadic. rewrite inject_Z_mult, pow2_Z by lia.
  replace e with (e - k + k)%Z at 1 by lia. rewrite pow2_add. ring.
Qed.

Lemma multiple_between n k lo hi :
  inject_Z lo * 2 ^ k <= inject_Z n * 2 ^ k -> inject_Z n * 2 ^ k < inject_Z hi * 2 ^ k ->
  (lo <= n < hi)%Z.
Proof.
  intros A B. apply Qmult_le_r in A; [|apply pow2_pos]. apply Qmult_lt_r in B; [|apply pow2_pos].
  rewrite <- Zle_Qle in A. rewrite <- Zlt_Qlt in B. lia.
Qed.

(** For float the bound is 10^-6 exactly. *)
Theorem C49_float v : value_in binary32 v ->
  (toStringF v = lit "0" <-> exists q, stands_for v q /\ Qabs q < 1 # 1000000).
Proof.
  intros Hv. apply (zero_text_bound binary32 v _ Hv). intros m e (Hm & _). cbn in Hm.
  assert (T : lit_1e_6 < 1 # 1000000) by (apply Qltb_iff; now vm_compute).
  split; intros L; [lra|]. apply Qnot_le_lt. intros G.
  destruct (as_multiple 24 m e (-43) Hm) as [n Hn]; [lia| |lia|].
  { eapply Qle_trans; [|exact G]. apply Qle_bool_iff. now vm_compute. }
  rewrite Hn in L, G.
  assert (n = 8796093)%Z.
  { assert (8796093 <= n < 8796094)%Z; [|lia]. apply (multiple_between n (-43)).
    - eapply Qle_trans; [|exact G]. apply Qle_bool_iff. now vm_compute.
    - eapply Qlt_le_trans; [exact L|]. apply Qle_bool_iff. now vm_compute. }
  subst n. revert G. apply Qlt_not_le. apply Qltb_iff. now vm_compute.
Qed.

(** For double it is 10^-6 with the exception of the two values nearest to 10^-6 and -10^-6. *)
Theorem C49_double_partial v : value_in binary64 v ->
  (forall neg, v <> Fin neg 4722366482869645 (-72)) ->
  (toStringF v = lit "0" <-> exists q, stands_for v q /\ Qabs q < 1 # 1000000).
Proof.
  intros Hv Hne. rewrite (C49_zero_text binary64 v Hv).
  assert (T : lit_1e_6 < 1 # 1000000) by (apply Qltb_iff; now vm_compute).
  split; intros (q & Hq & L); exists q; (split; [exact Hq|]).
  { unfold lit_1e_6, dyadic in T. lra. }
  apply Qnot_le_lt. intros G. destruct v as [neg m e|neg|neg]; [|inversion Hq..].
  pose proof Hv as Hv'. destruct Hv as (Hm & _). cbn in Hm.
  rewrite (stands_abs _ _ _ _ (proj1 Hm) Hq) in L, G.
  destruct (as_multiple 53 m e (-72) Hm) as [n Hn]; [lia| |lia|].
  { eapply Qle_trans; [|exact G]. apply Qle_bool_iff. now vm_compute. }
  assert (En : n = 4722366482869645%Z).
  { rewrite Hn in L, G.
    assert (4722366482869645 <= n < 4722366482869646)%Z; [|lia]. apply (multiple_between n (-72)).
    - exact G.
    - eapply Qlt_le_trans; [exact L|]. apply Qle_bool_iff. now vm_compute. }
  subst n.
  assert (Hc : magnitude_in binary64 4722366482869645 (-72)) by (unfold magnitude_in; cbn; lia).
  destruct (magnitude_unique binary64 m e _ _ ltac:(unfold sane; cbn; lia) Hv' Hc Hn) as [-> ->].
  now apply (Hne neg).
Qed.

(** The exception: the double nearest to 10^-6 is less than 10^-6 but not printed as 0. *)
Theorem C49_double_refuted :
  exists v q, value_in binary64 v /\ stands_for v q /\ Qabs q < 1 # 1000000 /\
              toStringF v = lit "1e-06".
Proof.
  exists (Fin false 4722366482869645 (-72)), (inject_Z 4722366482869645 * 2 ^ (-72)).
  split; [unfold value_in, magnitude_in; cbn; lia|]. split; [now constructor|]. split.
  - apply Qltb_iff. now vm_compute.
  - now vm_compute.
Qed.

(** Values that are not printed as 0 may also change by printing and parsing: six digits do
    not determine a value. *)
Theorem C49_round_trip_refuted uf :
  (exists v, value_in binary32 v /\ toStringF v <> lit "0" /\
             floatFromString binary32 uf (toStringF v) <> Some v) /\
  (exists v, value_in binary64 v /\ toStringF v <> lit "0" /\
             floatFromString binary64 uf (toStringF v) <> Some v) /\
  (exists v, value_in binary64 v /\ v <> Fin false 0 (-1074) /\ toStringF v = lit "0" /\
             floatFromString binary64 uf (toStringF v) = Some (Fin false 0 (-1074))).
Proof.
  split; [|split].
  - exists (Fin false 16777215 0). split; [unfold value_in, magnitude_in; cbn; lia|].
    split; [now vm_compute|]. destruct uf; now vm_compute.
  - exists (Fin false (2 ^ 52 + 1) (-52)). split; [unfold value_in, magnitude_in; cbn; lia|].
    split; [now vm_compute|]. destruct uf; now vm_compute.
  - (* the double nearest to 10^-7 *)
    exists (Fin false 7555786372591432 (-76)).
    split; [unfold value_in, magnitude_in; cbn; lia|]. split; [discriminate|].
    split; [now vm_compute|]. destruct uf; now vm_compute.
Qed.

Example C49_ex_values :
  value_in binary32 (Fin true 8796094 (-43)) /\ toStringF (Fin true 8796094 (-43)) = lit "-1e-06" /\
  value_in binary32 (Fin true 8796093 (-43)) /\ toStringF (Fin true 8796093 (-43)) = lit "0" /\
  value_in binary64 (Fin true 0 (-1074)) /\ toStringF (Fin true 0 (-1074)) = lit "0".
Proof. repeat split; cbn; try lia; now vm_compute. Qed.

(** * C58: exactly the numbers of the C grammar are accepted, correctly rounded *)

Theorem C58_exact f uf s v : sane f ->
  (floatFromString f uf s = Some v <-> conversion f uf s v).
Proof. apply floatFromString_spec. Qed.

Theorem C58_result_unique f uf s v v' : sane f ->
  conversion f uf s v -> conversion f uf s v' -> v = v'.
Proof.
  intros Hs H H'. apply (floatFromString_spec f uf s _ Hs) in H, H'. congruence.
Qed.

Theorem C58_result_in_format f uf s v : sane f -> floatFromString f uf s = Some v -> value_in f v.
Proof.
  intros Hs H. apply floatFromString_spec in H; [|exact Hs].
  destruct H as [neg q m e _ _ [N _] _|neg _|neg _]; [exact N|exact I|exact I].
Qed.

Lemma nearest_exact f q m e : sane f -> magnitude_in f m e -> q == inject_Z m * 2 ^ e ->
  nearest_magnitude f q m e.
Proof.
  intros Hs Hm E. split; [exact Hm|]. intros m' e' Hm'.
  assert (Z0 : q - inject_Z m * 2 ^ e == 0) by (rewrite E; ring).
  rewrite Z0. change (Qabs 0) with 0. split; [apply Qabs_nonneg|]. intros X Hne. exfalso. apply Hne.
  assert (Y : inject_Z m * 2 ^ e == inject_Z m' * 2 ^ e').
  { symmetry in X. revert X. apply Qabs_case; intros; lra. }
  destruct (magnitude_unique f m e m' e' Hs Hm Hm' Y) as [-> ->]. reflexivity.
Qed.

Lemma not_too_large f m e q : sane f -> magnitude_in f m e -> q == inject_Z m * 2 ^ e -> ~ too_large f q.
Proof.
  intros Hs Hm E T. pose proof (max_bound f m e Hs Hm) as B. unfold dyadic in B. rewrite <- E in B.
  unfold too_large in T. pose proof (pow2_pos (emax f)) as P.
  unfold Z.sub in B. rewrite inject_Z_plus in B. change (inject_Z (- (1))) with (- (1)) in B. lra.
Qed.

Lemma pow_split k : (0 <= k)%Z -> 2 ^ (- k) == inject_Z (5 ^ k) * 10 ^ (- k).
Proof.
  intros H. rewrite !Qpower_opp. rewrite (pow_Z 5) by exact H.
  change (inject_Z 5) with 5. change 10 with (2 * 5). rewrite Qmult_power.
  assert (A : ~ 2 ^ k == 0) by (pose proof (pow2_pos k) as P; intros E; rewrite E in P; lra).
  assert (B : ~ 5 ^ k == 0).
  { pose proof (pow_pos 5 k ltac:(lia)) as P. change (inject_Z 5) with 5 in P. intros E. rewrite E in P. lra. }
  field. now split.
Qed.

(** Every value has a text that is read back as that value. *)
Theorem C58_every_value_has_text f uf v : sane f -> value_in f v ->
  exists s, floatFromString f uf s = Some v.
Proof.
  intros Hs Hv. destruct v as [neg m e|neg|neg].
  - cbn in Hv.
    assert (Text : exists s q, decimal_text s q /\ q == inject_Z m * 2 ^ e).
    { assert (Hm : (0 <= m)%Z) by (destruct Hv; lia).
      destruct (Z_le_gt_dec 0 e) as [P|P].
      - exists (dec (m * 2 ^ e)). eexists. split.
        + rewrite <- (app_nil_r (dec _)).
          apply (decimal_text_intro (dec (m * 2 ^ e)) [] [] [] (m * 2 ^ e) 0); [constructor| |constructor].
          rewrite app_nil_r. apply dec_spec. pose proof (Z.pow_pos_nonneg 2 e). nia.
        + cbn [length Z.of_nat]. change (10 ^ (0 - 0)) with 1.
          rewrite inject_Z_mult, pow2_Z by easy. ring.
      - exists (dec (m * 5 ^ (- e)) ++ exponent_text e). eexists. split.
        + apply (decimal_text_intro (dec (m * 5 ^ (- e))) [] [] (exponent_text e) (m * 5 ^ (- e)) e);
            [constructor| |apply exponent_text_ok].
          rewrite app_nil_r. apply dec_spec. pose proof (Z.pow_pos_nonneg 5 (- e)). nia.
        + cbn [length Z.of_nat]. rewrite Z.sub_0_r, inject_Z_mult.
          pose proof (pow_split (- e) ltac:(lia)) as K. rewrite Z.opp_involutive in K. rewrite K. ring. }
    destruct Text as (s & q & Hq & E). exists (minus neg s).
    apply floatFromString_spec; [exact Hs|].
    apply (conversion_number f uf _ neg q m e).
    + now apply signed_text.
    + now apply (not_too_large f m e).
    + now apply nearest_exact.
    + intros _ [_ X]. now apply X.
  - exists (minus neg (lit "inf")). apply floatFromString_spec; [exact Hs|]. apply conversion_inf.
    destruct neg; cbn [minus].
    + apply (float_text_intro [] ["-"%char] true (lit "inf")); [easy|tauto|].
      apply unsigned_inf. repeat constructor.
    + apply (float_text_intro [] [] false (lit "inf")); [easy|tauto|].
      apply unsigned_inf. repeat constructor.
  - exists (minus neg (lit "nan")). apply floatFromString_spec; [exact Hs|]. apply conversion_nan.
    destruct neg; cbn [minus].
    + apply (float_text_intro [] ["-"%char] true (lit "nan")); [easy|tauto|].
      apply (unsigned_nan (lit "nan") []); repeat constructor.
    + apply (float_text_intro [] [] false (lit "nan")); [easy|tauto|].
      apply (unsigned_nan (lit "nan") []); repeat constructor.
Qed.

Example C58_ex_texts :
  let r s := floatFromString binary32 true (lit s) in
  r " +1.5e1"%string = Some (Fin false 15728640 (-20)) /\
  r "-0x1.8P+3"%string = Some (Fin true 12582912 (-20)) /\
  r ".1"%string = Some (Fin false 13421773 (-27)) /\
  r "-Infinity"%string = Some (Inf true) /\ r "nan(a_1)"%string = Some (NaN false) /\
  r "1e39"%string = None /\ r "1e"%string = None /\ r "."%string = None /\ r "1 "%string = None /\
  r "1e-45"%string = None /\ floatFromString binary32 false (lit "1e-45") = Some (Fin false 1 (-149)).
Proof. repeat split; now vm_compute. Qed.

Example C58_ex_conversion : conversion binary32 true (lit ".5") (Fin false 8388608 (-24)).
Proof. apply C58_exact; [unfold sane; cbn; lia|now vm_compute]. Qed.

(** * C56: what is printed, and how precisely it is read back *)

(** Values that are not printed as 0 are printed, after the sign, as the nearest number with
    six significant digits. *)
Theorem C56_text_is_nearest f neg m e :
  magnitude_in f m e -> toStringF (Fin neg m e) <> lit "0" ->
  exists d k s q,
    nearest6 (inject_Z m * 2 ^ e) d k /\ decimal_text s q /\ q == inject_Z d * 10 ^ k /\
    toStringF (Fin neg m e) = (if neg then "-"%char :: s else s).
Proof.
  intros Hm Hz. assert (Hm0 : (0 <= m)%Z) by (destruct Hm; lia).
  destruct (Qlt_le_dec (dyadic m e) lit_1e_6) as [L|L].
  { exfalso. now apply Hz, toString_small. }
  pose proof lit_pos.
  destruct (g_text_denotes (dyadic m e)) as (d & X & D & _ & _ & N & HD & HE); [lra|].
  exists d, (X - 5)%Z, (g_text (dyadic m e)), D. split; [exact N|]. split; [exact HD|].
  split; [exact HE|]. now rewrite toString_large.
Qed.

(** What is printed is accepted, also from the largest values, and the value read is the one
    nearest to the number printed. *)
Theorem C56_text_accepted f uf neg m e :
  standard f -> magnitude_in f m e -> toStringF (Fin neg m e) <> lit "0" ->
  exists d k m' e',
    nearest6 (inject_Z m * 2 ^ e) d k /\ nearest_magnitude f (inject_Z d * 10 ^ k) m' e' /\
    floatFromString f uf (toStringF (Fin neg m e)) = Some (Fin neg m' e').
Proof.
  intros Hf Hm Hz. assert (Hm0 : (0 <= m)%Z) by (destruct Hm; lia).
  destruct (Qlt_le_dec (dyadic m e) lit_1e_6) as [L|L].
  { exfalso. now apply Hz, toString_small. }
  destruct (parse_printed f uf neg m e Hf Hm L) as (d & X & m' & e' & _ & N & _ & NM & _ & P).
  exists d, (X - 5)%Z, m', e'. auto.
Qed.

(** Every finite value survives with a relative error of at most 5.1 in a million, or is
    less than 10^-6 and read back as zero. *)
Theorem C56_error f uf v q : standard f -> value_in f v -> stands_for v q ->
  exists v' q', floatFromString f uf (toStringF v) = Some v' /\ stands_for v' q' /\
    (Qabs (q' - q) <= Qabs q * (51 # 10000000) \/ Qabs q < 1 # 1000000 /\ q' == 0).
Proof.
  intros Hf Hv Hq. pose proof (standard_sane f Hf) as Hs. destruct v as [neg m e|neg|neg]; [|inversion Hq..].
  cbn in Hv. assert (Hm0 : (0 <= m)%Z) by (destruct Hv; lia).
  destruct (Qlt_le_dec (dyadic m e) lit_1e_6) as [L|L].
  - exists (Fin false 0 (emin f)), 0. rewrite toString_small by easy.
    split; [now apply parse_zero|]. split; [constructor; change (inject_Z 0) with 0; ring|].
    right. split; [|reflexivity]. rewrite (stands_abs _ _ _ _ Hm0 Hq).
    assert (T : lit_1e_6 < 1 # 1000000) by (apply Qltb_iff; now vm_compute). lra.
  - destruct (parse_printed f uf neg m e Hf Hv L) as (d & X & m' & e' & E & N & _ & NM & R & P).
    exists (Fin neg m' e'). pose proof lit_pos as LP.
    destruct (digits6_spec (dyadic m e) d X ltac:(lra) E) as [[Hd _] Err].
    assert (Hu : 10 ^ (X - 5) <= inject_Z d * 10 ^ (X - 5) * (1 # 100000)).
    { assert (A : inject_Z 100000 * 10 ^ (X - 5) <= inject_Z d * 10 ^ (X - 5))
        by (apply Qmult_le_compat_r; [apply inject_le; lia|apply Qlt_le_weak, pow10_pos]).
      change (inject_Z 100000) with 100000 in A. lra. }
    set (D := inject_Z d * 10 ^ (X - 5)) in *. set (u := 10 ^ (X - 5)) in *.
    assert (Main : Qabs (dyadic m' e' - dyadic m e) <= dyadic m e * (51 # 10000000)).
    { apply Qabs_Qle_condition in Err. apply Qabs_Qle_condition in R. apply Qabs_Qle_condition.
      split; lra. }
    destruct neg.
    + exists (- dyadic m' e'). split; [exact P|]. split; [constructor; reflexivity|]. left.
      rewrite (stands_abs _ _ _ _ Hm0 Hq). inversion Hq as [? ? ? Hx|? ? ? Hx]; subst. fold (dyadic m e) in Hx. rewrite Hx.
      eapply Qle_trans; [|exact Main]. apply Qle_lteq. right.
      rewrite <- Qabs_opp. apply Qabs_wd. ring.
    + exists (dyadic m' e'). split; [exact P|]. split; [constructor; reflexivity|]. left.
      rewrite (stands_abs _ _ _ _ Hm0 Hq). inversion Hq as [? ? ? Hx|? ? ? Hx]; subst. fold (dyadic m e) in Hx. rewrite Hx.
      exact Main.
Qed.

(** Infinities and NaN are read back. *)
Theorem C56_special f uf v : sane f -> (forall neg m e, v <> Fin neg m e) ->
  floatFromString f uf (toStringF v) = Some v.
Proof.
  intros Hs Hv. destruct v as [neg m e|neg|neg]; [exfalso; now apply (Hv neg m e)|..];
    destruct neg; reflexivity.
Qed.

Example C56_ex_largest :
  magnitude_in binary32 16777215 104 /\ toStringF (Fin false 16777215 104) = lit "3.40282e+38" /\
  floatFromString binary32 true (lit "3.40282e+38") = Some (Fin false 16777198 104).
Proof. repeat split; cbn; try lia; now vm_compute. Qed.

Example C56_ex_styles :
  toStringF (Fin false 1 0) = lit "1" /\ toStringF (Fin true 5 (-1)) = lit "-2.5" /\
  toStringF (Fin false 1 20) = lit "1.04858e+06" /\ toStringF (Fin false 1 (-13)) = lit "0.00012207" /\
  toStringF (Fin false 1 (-14)) = lit "6.10352e-05" /\ toStringF (Fin false 1999999 (-1)) = lit "1e+06".
Proof. repeat split; now vm_compute. Qed.

(** * C57: printing what was read from a printed text gives the same text *)

Lemma reprint f uf v v' : standard f -> value_in f v ->
  floatFromString f uf (toStringF v) = Some v' ->
  toStringF v' = toStringF v \/
  exists neg m e d X m' e', v = Fin neg m e /\ lit_1e_6 <= dyadic m e /\
    (100000 <= d <= 999999)%Z /\ 1 # 1000000 <= inject_Z d * 10 ^ (X - 5) /\
    toStringF v = minus neg (g_digits d X) /\ v' = Fin neg m' e' /\
    nearest_magnitude f (inject_Z d * 10 ^ (X - 5)) m' e' /\
    (lit_1e_6 <= dyadic m' e' -> toStringF v' = toStringF v).
Proof.
  intros Hf Hv H. pose proof (standard_sane f Hf) as Hs. destruct v as [neg m e|neg|neg].
  - cbn in Hv. assert (Hm0 : (0 <= m)%Z) by (destruct Hv; lia).
    destruct (Qlt_le_dec (dyadic m e) lit_1e_6) as [L|L].
    + left. rewrite (toString_small neg m e) in * by easy. rewrite parse_zero in H by easy.
      inversion H; subst. apply toString_small; [lia|]. unfold dyadic at 1.
      change (inject_Z 0) with 0. pose proof lit_pos. assert (0 * 2 ^ emin f == 0) by ring. lra.
    + right. destruct (parse_printed f uf neg m e Hf Hv L) as (d & X & m' & e' & E & N & Low & NM & R & P).
      rewrite P in H. inversion H; subst. pose proof N as [Hd _].
      exists neg, m, e, d, X, m', e'. split; [reflexivity|]. split; [exact L|].
      split; [exact Hd|]. split; [exact Low|].
      assert (T : toStringF (Fin neg m e) = minus neg (g_digits d X)).
      { rewrite toString_large by easy. rewrite g_text_digits, E. reflexivity. }
      split; [exact T|]. split; [reflexivity|]. split; [exact NM|].
      intros L'. rewrite T. rewrite toString_large by (try exact L'; destruct NM as [[? _] _]; lia).
      f_equal. eapply same_digits; [exact Hd|reflexivity|exact R].
  - left. rewrite C56_special in H by easy. now inversion H.
  - left. rewrite C56_special in H by easy. now inversion H.
Qed.

(** For double and long double. *)
Theorem C57_text_stable f uf v v' :
  f = binary64 \/ f = x87 -> value_in f v ->
  floatFromString f uf (toStringF v) = Some v' -> toStringF v' = toStringF v.
Proof.
  intros Hf Hv H. destruct (reprint f uf v v' (or_intror Hf) Hv H)
    as [E|(neg & m & e & d & X & m' & e' & -> & L & Hd & Low & T & -> & NM & R)]; [exact E|].
  apply R.
  assert (C : exists mc ec, magnitude_in f mc ec /\ dyadic mc ec == lit_1e_6).
  { destruct Hf as [->| ->].
    - exists 4722366482869645%Z, (-72)%Z. split; [unfold magnitude_in; cbn; lia|reflexivity].
    - exists (4722366482869645 * 2048)%Z, (-83)%Z. split; [unfold magnitude_in; cbn; lia|]. now vm_compute. }
  destruct C as (mc & ec & Hc & E). rewrite <- E.
  eapply nearest_above; [exact Hc| |exact NM].
  rewrite E. eapply Qle_trans; [|exact Low]. apply Qle_bool_iff. now vm_compute.
Qed.

(** For float, with the exception of values that are printed as 1e-06 or -1e-06 ... *)
Theorem C57_float_partial uf v v' :
  value_in binary32 v -> toStringF v <> lit "1e-06" -> toStringF v <> lit "-1e-06" ->
  floatFromString binary32 uf (toStringF v) = Some v' -> toStringF v' = toStringF v.
Proof.
  intros Hv N1 N2 H. destruct (reprint binary32 uf v v' (or_introl eq_refl) Hv H)
    as [E|(neg & m & e & d & X & m' & e' & -> & L & Hd & Low & T & -> & NM & R)]; [exact E|].
  apply R.
  assert (Hne : ~ (d = 100000 /\ X = -6)%Z).
  { intros [-> ->]. destruct neg; [apply N2|apply N1]; rewrite T; now vm_compute. }
  assert (Up : 100001 # 100000000000 <= inject_Z d * 10 ^ (X - 5)).
  { assert (K : (-11 <= X - 5)%Z).
    { destruct (Z_le_gt_dec (-11) (X - 5)) as [|G]; [easy|]. exfalso.
      assert (A : inject_Z d * 10 ^ (X - 5) <= inject_Z 999999 * 10 ^ (-12)).
      { apply Qle_trans with (inject_Z 999999 * 10 ^ (X - 5)).
        - apply Qmult_le_compat_r; [apply inject_le; lia|apply Qlt_le_weak, pow10_pos].
        - rewrite !(Qmult_comm (inject_Z 999999)). apply Qmult_le_compat_r; [apply pow10_le; lia|].
          apply inject_nonneg. lia. }
      assert (B : inject_Z 999999 * 10 ^ (-12) < 1 # 1000000) by (apply Qltb_iff; now vm_compute).
      lra. }
    destruct (Z.eq_dec (X - 5) (-11)) as [E|E].
    - assert (d <> 100000)%Z by (intros ->; apply Hne; split; lia).
      rewrite E. apply Qle_trans with (inject_Z 100001 * 10 ^ (-11)).
      + apply Qle_bool_iff. now vm_compute.
      + apply Qmult_le_compat_r; [apply inject_le; lia|apply Qlt_le_weak, pow10_pos].
    - apply Qle_trans with (inject_Z 100000 * 10 ^ (-10)).
      + apply Qle_bool_iff. now vm_compute.
      + apply Qle_trans with (inject_Z d * 10 ^ (-10)).
        * apply Qmult_le_compat_r; [apply inject_le; lia|apply Qlt_le_weak, pow10_pos].
        * rewrite !(Qmult_comm (inject_Z d)). apply Qmult_le_compat_r; [apply pow10_le; lia|].
          apply inject_nonneg. lia. }
  assert (Hc : magnitude_in binary32 8796094 (-43)) by (unfold magnitude_in; cbn; lia).
  apply Qle_trans with (dyadic 8796094 (-43)).
  - apply Qle_bool_iff. now vm_compute.
  - eapply nearest_above; [exact Hc| |exact NM].
    eapply Qle_trans; [|exact Up]. apply Qle_bool_iff. now vm_compute.
Qed.

(** ... which are read back as a value that is printed as 0. *)
Theorem C57_float_refuted uf :
  exists v v', value_in binary32 v /\ toStringF v = lit "1e-06" /\
    floatFromString binary32 uf (toStringF v) = Some v' /\ toStringF v' = lit "0".
Proof.
  exists (Fin false 8796094 (-43)), (Fin false 8796093 (-43)).
  split; [unfold value_in, magnitude_in; cbn; lia|].
  split; [now vm_compute|]. split; [destruct uf; now vm_compute|now vm_compute].
Qed.

Theorem C57_float_exceptions uf v v' :
  value_in binary32 v -> toStringF v = lit "1e-06" \/ toStringF v = lit "-1e-06" ->
  floatFromString binary32 uf (toStringF v) = Some v' -> toStringF v' = lit "0".
Proof.
  intros _ [->| ->] H.
  - assert (E : floatFromString binary32 uf (lit "1e-06") = Some (Fin false 8796093 (-43)))
      by (destruct uf; now vm_compute).
    rewrite E in H. inversion H; subst. now vm_compute.
  - assert (E : floatFromString binary32 uf (lit "-1e-06") = Some (Fin true 8796093 (-43)))
      by (destruct uf; now vm_compute).
    rewrite E in H. inversion H; subst. now vm_compute.
Qed.

Example C57_ex_stable :
  let v := Fin false 6004799503160661 (-54) in (* the double nearest to 1/3 *)
  value_in binary64 v /\ toStringF v = lit "0.333333" /\
  exists v', floatFromString binary64 true (toStringF v) = Some v' /\ v' <> v /\
             toStringF v' = lit "0.333333".
Proof.
  cbv zeta. split; [unfold value_in, magnitude_in; cbn; lia|]. split; [now vm_compute|].
  eexists. split; [now vm_compute|]. split; [discriminate|now vm_compute].
Qed.

(** * Assumptions *)
Print Assumptions C49_zero_text.
Print Assumptions C49_literal.
Print Assumptions C49_float.
Print Assumptions C49_double_partial.
Print Assumptions C49_double_refuted.
Print Assumptions C49_round_trip_refuted.
Print Assumptions C58_exact.
Print Assumptions C58_result_unique.
Print Assumptions C58_result_in_format.
Print Assumptions C58_every_value_has_text.
Print Assumptions C56_text_is_nearest.
Print Assumptions C56_text_accepted.
Print Assumptions C56_error.
Print Assumptions C56_special.
Print Assumptions C57_text_stable.
Print Assumptions C57_float_partial.
Print Assumptions C57_float_refuted.
Print Assumptions C57_float_exceptions.
