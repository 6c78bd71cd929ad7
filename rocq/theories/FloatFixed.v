(** Lemmas about the text of %f. *)
From Coq Require Import Ascii String NArith ZArith QArith Qpower Qabs Qround Lqa Bool PeanoNat Lia List.
Import ListNotations.
From Verif Require Import Base StringConv StringConvSpec StringConvProofs SerializerSpec
  FloatConv FloatConvSpec FloatArith FloatRound FloatScan FloatConvProofs FloatRoundTrip
  UserTypes UserTypesSpec.

Local Notation length := List.length.
Local Open Scope Q_scope.

(** ** The digits *)

Lemma padded_length n : forall z, length (padded n z) = n.
Proof. induction n as [|n IH]; intros z; [reflexivity|]. cbn [padded]. rewrite app_length, IH. cbn. lia. Qed.

Lemma padded_spec n : forall z, (0 <= z < 10 ^ Z.of_nat n)%Z ->
  forallb isdigit (padded n z) = true /\ number 10 (padded n z) = z.
Proof.
  induction n as [|n IH]; intros z H.
  - cbn in *. split; [reflexivity|lia].
  - cbn [padded]. rewrite Nat2Z.inj_succ, Z.pow_succ_r in H by lia.
    assert (Hq : (0 <= z / 10 < 10 ^ Z.of_nat n)%Z).
    { split; [apply Z.div_pos; lia|apply Z.div_lt_upper_bound; lia]. }
    destruct (IH _ Hq) as [I1 I2].
    assert (Hm : (0 <= z mod 10 < 10)%Z) by (apply Z.mod_pos_bound; lia).
    destruct (digit_isdigit _ _ (digit_char_digit (z mod 10) Hm)) as [D1 D2].
    split.
    + rewrite forallb_app, I1. cbn [forallb]. now rewrite D1.
    + rewrite number_snoc, I2.
      assert (X : xdigit_val (digit_char (z mod 10)) = (z mod 10)%Z).
      { unfold xdigit_val. rewrite D1. now symmetry. }
      rewrite X. rewrite (Z.div_mod z 10) at 3 by lia. lia.
Qed.

(** ** The number *)

Definition millionths (q : Q) : Z := round_even (q * 10 ^ 6).

Lemma scaled_million q n : q * 10 ^ 6 - inject_Z n == (q - inject_Z n * (1 # 1000000)) * 10 ^ 6.
Proof. change (10 ^ 6) with 1000000. ring. Qed.

Lemma abs_million q n : Qabs (q * 10 ^ 6 - inject_Z n) == Qabs (q - inject_Z n * (1 # 1000000)) * 10 ^ 6.
Proof. rewrite scaled_million, Qabs_Qmult. reflexivity. Qed.

Lemma millionths_nearest q : nearest_millionth q (millionths q).
Proof.
  intros n'. destruct (round_even_nearest (q * 10 ^ 6) n') as [A B]. fold (millionths q) in A, B.
  rewrite !abs_million in A, B. split.
  - apply (Qmult_le_r _ _ (10 ^ 6)); [reflexivity|exact A].
  - intros E. apply B. now rewrite E.
Qed.

Lemma millionths_nonneg q : 0 <= q -> (0 <= millionths q)%Z.
Proof.
  intros H. apply round_even_ge. change (inject_Z 0) with 0.
  change (10 ^ 6) with 1000000. lra.
Qed.

Lemma millionths_half q : Qabs (q - inject_Z (millionths q) * (1 # 1000000)) <= 1 # 2000000.
Proof.
  destruct (round_even_half (q * 10 ^ 6)) as [[A B] _]. fold (millionths q) in A, B.
  change (10 ^ 6) with 1000000 in A, B. apply Qabs_Qle_condition. split; lra.
Qed.

(** Another number at most as far from the multiple of 10^-6 has the same text. *)
Lemma millionths_same x y :
  Qabs (inject_Z (millionths x) * (1 # 1000000) - y) <= Qabs (inject_Z (millionths x) * (1 # 1000000) - x) ->
  millionths y = millionths x.
Proof.
  intros H. set (n := millionths x) in *.
  destruct (round_even_half (x * 10 ^ 6)) as [[A B] C]. fold (millionths x) in A, B, C. fold n in A, B, C.
  change (10 ^ 6) with 1000000 in A, B, C.
  destruct (round_even_half (y * 10 ^ 6)) as [[A' B'] C']. fold (millionths y) in A', B', C'.
  change (10 ^ 6) with 1000000 in A', B', C'. set (n' := millionths y) in *.
  destruct (Z.eq_dec n' n) as [E|E]; [exact E|exfalso].
  assert (Hx : Qabs (inject_Z n * (1 # 1000000) - x) <= 1 # 2000000)
    by (apply Qabs_Qle_condition; split; lra).
  assert (Hy : Qabs (inject_Z n * (1 # 1000000) - y) <= 1 # 2000000) by lra.
  apply Qabs_Qle_condition in Hy.
  (* y is in the middle between n and n', so that both are even *)
  assert (Ev' : Z.even n' = true).
  { apply C'. destruct (Z_apart _ _ E); [right|left]; lra. }
  assert (Far : 1 # 2000000 <= Qabs (inject_Z n * (1 # 1000000) - y)).
  { destruct (Z_apart _ _ E); [apply Qabs_case; intros; lra|apply Qabs_case; intros; lra]. }
  assert (Ev : Z.even n = true).
  { apply C. assert (Q : Qabs (inject_Z n * (1 # 1000000) - x) == 1 # 2000000) by lra.
    revert Q. apply Qabs_case; intros; [left|right]; lra. }
  assert (Near : (n' = n + 1 \/ n' = n - 1)%Z).
  { assert (U : inject_Z n' <= inject_Z n + 1) by lra. assert (L : inject_Z n - 1 <= inject_Z n') by lra.
    change 1 with (inject_Z 1) in U, L. rewrite <- inject_Z_plus, <- Zle_Qle in U.
    unfold Qminus in L. rewrite <- inject_Z_opp, <- inject_Z_plus, <- Zle_Qle in L. lia. }
  rewrite Zeven_bool_iff in Ev, Ev'. rewrite Zeven_ex_iff in Ev, Ev'.
  destruct Ev as [a ->], Ev' as [b ->]. lia.
Qed.

Lemma f_text_eq q : f_text q = dec (millionths q / 1000000) ++ "."%char :: padded 6 (millionths q mod 1000000).
Proof. reflexivity. Qed.

Lemma f_text_parts q : 0 <= q ->
  let ip := dec (millionths q / 1000000) in let fp := padded 6 (millionths q mod 1000000) in
  canonical (millionths q / 1000000) ip /\ length fp = 6%nat /\ digits (ip ++ fp) (millionths q).
Proof.
  intros H. pose proof (millionths_nonneg q H) as Hn. set (n := millionths q) in *. cbv zeta.
  assert (Hq : (0 <= n / 1000000)%Z) by (apply Z.div_pos; lia).
  assert (Hm : (0 <= n mod 1000000 < 10 ^ Z.of_nat 6)%Z) by (apply Z.mod_pos_bound; lia).
  split; [now apply dec_canonical|]. split; [apply padded_length|].
  destruct (padded_spec 6 _ Hm) as [P1 P2].
  destruct (dec_spec (n / 1000000) Hq) as (D & _). apply digits_number in D. destruct D as (D0 & D1 & D2).
  apply digits_number. split; [destruct (dec (n / 1000000)); [now elim D0|discriminate]|].
  split; [rewrite forallb_app, D1, P1; reflexivity|].
  rewrite number_app, padded_length, P2, <- D2.
  change (10 ^ Z.of_nat 6)%Z with 1000000%Z. rewrite (Z.div_mod n 1000000) at 1 by lia. lia.
Qed.

Lemma f_text_fixed q : 0 <= q -> fixed_text (millionths q) (f_text q).
Proof.
  intros H. destruct (f_text_parts q H) as (A & B & C). rewrite f_text_eq. now econstructor; eauto.
Qed.

Lemma f_text_decimal q : 0 <= q -> exists D, decimal_text (f_text q) D /\ D == inject_Z (millionths q) * (1 # 1000000).
Proof.
  intros H. destruct (f_text_parts q H) as (A & B & C). rewrite f_text_eq.
  exists (inject_Z (millionths q) * 10 ^ (0 - Z.of_nat (length (padded 6 (millionths q mod 1000000))))). split.
  - rewrite <- (app_nil_r ("."%char :: padded 6 _)).
    apply (decimal_text_intro _ ("."%char :: padded 6 (millionths q mod 1000000)) (padded 6 (millionths q mod 1000000)) [] (millionths q) 0);
      [constructor|exact C|constructor].
  - rewrite B. reflexivity.
Qed.

(** ** Reading it *)

Section Read.
Variable f : fmt.
Hypothesis Hf : standard f.

Lemma million_not_too_large m e : magnitude_in f m e ->
  ~ too_large f (inject_Z (millionths (dyadic m e)) * (1 # 1000000)).
Proof.
  intros Hm T. pose proof (standard_sane f Hf) as Hs. pose proof (standard_range f Hf) as R.
  pose proof (millionths_half (dyadic m e)) as Hh. apply Qabs_Qle_condition in Hh.
  unfold too_large in T.
  assert (P : 2 ^ 104 <= 2 ^ emax f) by (apply pow2_le; lia).
  assert (B : dyadic m e <= (inject_Z (2 ^ prec f) - 1) * 2 ^ emax f).
  { pose proof (max_bound f m e Hs Hm) as B. unfold Z.sub in B. rewrite inject_Z_plus in B. exact B. }
  assert (G : 1 <= 2 ^ emax f).
  { eapply Qle_trans; [|exact P]. apply Qle_bool_iff. now vm_compute. }
  assert (X : (inject_Z (2 ^ prec f) - (1 # 2)) * 2 ^ emax f ==
              (inject_Z (2 ^ prec f) - 1) * 2 ^ emax f + (1 # 2) * 2 ^ emax f) by ring.
  rewrite X in T. lra.
Qed.

Lemma fixed_read uf neg m e : magnitude_in f m e ->
  exists m' e',
    nearest_magnitude f (inject_Z (millionths (dyadic m e)) * (1 # 1000000)) m' e' /\
    floatFromString f uf (minus neg (f_text (dyadic m e))) = Some (Fin neg m' e').
Proof.
  intros Hm. pose proof (standard_sane f Hf) as Hs.
  assert (Hq : 0 <= dyadic m e) by (apply dyadic_nonneg; destruct Hm; lia).
  pose proof (millionths_nonneg _ Hq) as Hn.
  pose proof (million_not_too_large m e Hm) as NO.
  destruct (f_text_decimal _ Hq) as (D & HD & HE).
  set (n := millionths (dyadic m e)) in *.
  destruct (Z.eq_dec n 0) as [Z0|NZ].
  - exists 0%Z, (emin f). assert (N : nearest_magnitude f (inject_Z n * (1 # 1000000)) 0 (emin f)).
    { apply nearest_zero; [exact Hs|]. rewrite Z0. reflexivity. }
    split; [exact N|]. apply floatFromString_spec; [exact Hs|].
    apply (conversion_number f uf _ neg D).
    + now apply signed_text.
    + unfold too_large in *. rewrite HE. exact NO.
    + eapply nearest_comp; [|exact N]. now symmetry.
    + intros _ [_ A]. apply A. rewrite HE, Z0. change (inject_Z 0) with 0. ring.
  - assert (Low : 1 # 1000000 <= inject_Z n * (1 # 1000000)).
    { assert (A : inject_Z 1 <= inject_Z n) by (apply inject_le; lia).
      change (inject_Z 1) with 1 in A. lra. }
    destruct (nearest_exists f (inject_Z n * (1 # 1000000)) Hs) as (m' & e' & NM); [lra|exact NO|].
    destruct (relative_error f _ m' e' Hf Low NO NM) as [Rel Norm].
    exists m', e'. split; [exact NM|].
    apply floatFromString_spec; [exact Hs|].
    apply (conversion_number f uf _ neg D m' e').
    + now apply signed_text.
    + unfold too_large in *. rewrite HE. exact NO.
    + eapply nearest_comp; [|exact NM]. now symmetry.
    + intros _ [Small _]. lia.
Qed.

(** The value read is at most as far away from the number shown as the value shown. *)
Lemma fixed_reread uf neg m e : magnitude_in f m e ->
  exists m' e', magnitude_in f m' e' /\
    floatFromString f uf (printf_f (Fin neg m e)) = Some (Fin neg m' e') /\
    printf_f (Fin neg m' e') = printf_f (Fin neg m e) /\
    Qabs (dyadic m' e' - dyadic m e) <= 1 # 1000000 /\
    (inject_Z (millionths (dyadic m e)) * (1 # 1000000) == dyadic m e -> (m', e') = (m, e)).
Proof.
  intros Hm. pose proof (standard_sane f Hf) as Hs.
  destruct (fixed_read uf neg m e Hm) as (m' & e' & NM & P). exists m', e'.
  pose proof NM as [Hm' Min]. split; [exact Hm'|]. split; [exact P|].
  destruct (Min m e Hm) as [Le _]. fold (dyadic m e) (dyadic m' e') in Le.
  pose proof (millionths_half (dyadic m e)) as Hh.
  split; [|split].
  - cbn [printf_f]. f_equal. unfold f_text. fold (millionths (dyadic m e)) (millionths (dyadic m' e')).
    now rewrite (millionths_same _ _ Le).
  - rewrite Qabs_Qminus in Hh. assert (A := Qle_trans _ _ _ Le Hh).
    apply Qabs_Qle_condition in A. apply Qabs_Qle_condition in Hh. apply Qabs_Qle_condition. split; lra.
  - intros E. assert (Z0 : Qabs (inject_Z (millionths (dyadic m e)) * (1 # 1000000) - dyadic m e) == 0).
    { rewrite E. assert (X : dyadic m e - dyadic m e == 0) by ring. rewrite X. reflexivity. }
    assert (V : dyadic m' e' == dyadic m e).
    { rewrite Z0 in Le. apply Qabs_Qle_condition in Le. lra. }
    destruct (magnitude_unique f m' e' m e Hs Hm' Hm V) as [-> ->]. reflexivity.
Qed.
End Read.

(** ** Floats of at least 16 are read back exactly *)

Lemma as_20 m e : (-20 <= e)%Z -> dyadic m e == inject_Z (m * 2 ^ (e + 20)) * 2 ^ (-20).
Proof.
  intros H. unfold dyadic. rewrite inject_Z_mult, pow2_Z by lia.
  rewrite <- Qmult_assoc, <- pow2_add. now replace (e + 20 + -20)%Z with e by lia.
Qed.

Lemma fixed_exact uf neg m e : magnitude_in binary32 m e -> 16 <= dyadic m e ->
  floatFromString binary32 uf (printf_f (Fin neg m e)) = Some (Fin neg m e).
Proof.
  intros Hm H16.
  destruct (fixed_reread binary32 (or_introl eq_refl) uf neg m e Hm) as (m' & e' & Hm' & P & _ & Cl & Ex).
  rewrite P. enough (E : (m', e') = (m, e)) by (injection E as -> ->; reflexivity).
  apply Qabs_Qle_condition in Cl.
  destruct Hm as (Rm & Re & Sm) eqn:EHm. clear EHm. cbn [prec emin emax binary32] in *.
  destruct Hm' as (Rm' & Re' & Sm') eqn:EHm'. clear EHm'. cbn [prec emin emax binary32] in *.
  assert (Up : forall k j i, (0 <= k < 2 ^ 24)%Z -> (j <= i)%Z -> dyadic k j <= inject_Z (2 ^ 24 - 1) * 2 ^ i).
  { intros k j i Hk Hj. unfold dyadic. apply Qle_trans with (inject_Z k * 2 ^ i).
    - rewrite !(Qmult_comm (inject_Z k)). apply Qmult_le_compat_r; [now apply pow2_le|apply inject_nonneg; lia].
    - apply Qmult_le_compat_r; [apply inject_le; lia|apply Qlt_le_weak, pow2_pos]. }
  assert (He : (-19 <= e)%Z).
  { destruct (Z_le_gt_dec (-19) e) as [|G]; [easy|]. exfalso.
    pose proof (Up m e (-20)%Z Rm ltac:(lia)) as U.
    assert (T : inject_Z (2 ^ 24 - 1) * 2 ^ (-20) < 16) by (apply Qltb_iff; now vm_compute). lra. }
  assert (He' : (-20 <= e')%Z).
  { destruct (Z_le_gt_dec (-20) e') as [|G]; [easy|]. exfalso.
    pose proof (Up m' e' (-21)%Z Rm' ltac:(lia)) as U.
    assert (T : inject_Z (2 ^ 24 - 1) * 2 ^ (-21) < 8) by (apply Qltb_iff; now vm_compute). lra. }
  pose proof (as_20 m e ltac:(lia)) as X. pose proof (as_20 m' e' He') as X'.
  set (M := (m * 2 ^ (e + 20))%Z) in *. set (M' := (m' * 2 ^ (e' + 20))%Z) in *.
  change (2 ^ (-20)) with (1 # 1048576) in X, X'.
  assert (Near : (M' - M <= 1 /\ M - M' <= 1)%Z).
  { rewrite X, X' in Cl. split.
    - enough (M' - M < 2)%Z by lia. rewrite Zlt_Qlt. unfold Z.sub. rewrite inject_Z_plus, inject_Z_opp.
      change (inject_Z 2) with 2. lra.
    - enough (M - M' < 2)%Z by lia. rewrite Zlt_Qlt. unfold Z.sub. rewrite inject_Z_plus, inject_Z_opp.
      change (inject_Z 2) with 2. lra. }
  assert (MB : (2 ^ 24 <= M)%Z).
  { rewrite Zle_Qle. change (inject_Z (2 ^ 24)) with 16777216. rewrite X in H16. lra. }
  assert (Even : forall k j, (-19 <= j)%Z -> exists h, (k * 2 ^ (j + 20) = 2 * h)%Z).
  { intros k j Hj. exists (k * 2 ^ (j + 19))%Z. replace (j + 20)%Z with (Z.succ (j + 19)) by lia.
    rewrite Z.pow_succ_r by lia. lia. }
  destruct (Even m e He) as [h Eh]. fold M in Eh.
  assert (Same : M' = M -> (m', e') = (m, e)).
  { intros E. assert (V : dyadic m' e' == dyadic m e) by now rewrite X, X', E.
    assert (Hs : sane binary32) by (unfold sane; cbn; lia).
    destruct (magnitude_unique binary32 m' e' m e Hs) as [-> ->]; [split; auto..|exact V|reflexivity]. }
  destruct (Z.eq_dec e' (-20)) as [E20|N20].
  - assert (EM : M = (2 ^ 24)%Z).
    { unfold M' in Near. rewrite E20 in Near. change (2 ^ (-20 + 20))%Z with 1%Z in Near.
      change (2 ^ 24)%Z with 16777216%Z in *. lia. }
    assert (Q : millionths (dyadic m e) = 16000000%Z).
    { unfold millionths. rewrite (round_even_comp _ 16000000) by (rewrite X, EM; reflexivity). reflexivity. }
    apply Ex. rewrite Q, X, EM. reflexivity.
  - apply Same. destruct (Even m' e' ltac:(lia)) as [h' Eh']. fold M' in Eh'. lia.
Qed.

(** ** %g, without the special case of toString *)

Lemma relative_error_normal f D m e : sane f -> (24 <= prec f)%Z -> 2 ^ (emin f + prec f - 1) <= D ->
  ~ too_large f D -> nearest_magnitude f D m e ->
  Qabs (D - dyadic m e) <= D * (1 # 16777216) /\ (2 ^ (prec f - 1) <= m)%Z.
Proof.
  intros Hs Hp HD T N.
  assert (Hpos : 0 < D) by (eapply Qlt_le_trans; [apply pow2_pos|exact HD]).
  pose proof N as N0. apply nearest_round in N0; [|easy..].
  destruct (round_fmt_spec f D m e Hs Hpos N0) as (_ & _ & Err).
  destruct (ilog_spec 2 D two_le_two Hpos) as [L1 L2]. change (inject_Z 2) with 2 in L1, L2.
  assert (HL : (emin f + prec f - 1 <= ilog 2 D)%Z).
  { assert (A : 2 ^ (emin f + prec f - 1) < 2 ^ (ilog 2 D + 1)) by lra.
    apply (pow_lt_inv 2 _ _ two_le_two) in A. lia. }
  rewrite Z.max_r in Err by lia.
  assert (E24 : Qabs (D - dyadic m e) <= D * (1 # 16777216)).
  { eapply Qle_trans; [exact Err|].
    apply Qle_trans with (2 ^ ilog 2 D * (1 # 16777216)).
    - replace (ilog 2 D - prec f + 1)%Z with (1 + (ilog 2 D + (24 - prec f) + - 24))%Z by lia.
      rewrite !pow2_add. change (2 ^ 1) with 2. change (2 ^ (- 24)) with (1 # 16777216).
      assert (P1 : 2 ^ (24 - prec f) <= 1).
      { change 1 with (2 ^ 0). apply pow2_le. lia. }
      pose proof (pow2_pos (ilog 2 D)) as P.
      assert (B : 2 ^ ilog 2 D * 2 ^ (24 - prec f) <= 2 ^ ilog 2 D * 1).
      { rewrite !(Qmult_comm (2 ^ ilog 2 D)). apply Qmult_le_compat_r; lra. }
      lra.
    - apply Qmult_le_compat_r; [exact L1|lra]. }
  split; [exact E24|].
  destruct Hs as [Hs1 Hs2].
  assert (Nrm : magnitude_in f (2 ^ (prec f - 1)) (emin f)).
  { split; [|lia]. split; [apply Z.pow_nonneg; lia|]. apply Z.pow_lt_mono_r; lia. }
  assert (V : dyadic (2 ^ (prec f - 1)) (emin f) <= D).
  { unfold dyadic. rewrite pow2_Z, <- pow2_add by lia.
    replace (prec f - 1 + emin f)%Z with (emin f + prec f - 1)%Z by lia. exact HD. }
  pose proof (nearest_above f D m e _ _ Nrm V N) as A.
  destruct (Z_le_gt_dec (2 ^ (prec f - 1)) m) as [|G]; [easy|]. exfalso.
  destruct N as [(Hm & He & Hsub) _]. specialize (Hsub ltac:(lia)). subst e.
  unfold dyadic in A. apply Qmult_le_r in A; [|apply pow2_pos]. rewrite <- Zle_Qle in A. lia.
Qed.

Lemma nearest6_bound x d k dl kl : (0 <= dl <= 999999)%Z -> inject_Z dl * 10 ^ kl <= x ->
  nearest6 x d k -> inject_Z dl * 10 ^ kl <= inject_Z d * 10 ^ k.
Proof.
  intros Hl Hx [_ N]. destruct (N dl kl Hl) as [A _].
  apply Qnot_lt_le. intros L. revert A. apply Qabs_case; apply Qabs_case; intros; lra.
Qed.

Lemma g_reread uf neg m e : magnitude_in binary32 m e ->
  m = 0%Z \/ inject_Z 117550 * 10 ^ (-43) <= dyadic m e ->
  exists m' e', magnitude_in binary32 m' e' /\
    floatFromString binary32 uf (printf_g (Fin neg m e)) = Some (Fin neg m' e') /\
    printf_g (Fin neg m' e') = printf_g (Fin neg m e).
Proof.
  intros Hm [->|Hl].
  - exists 0%Z, (-149)%Z. split; [unfold magnitude_in; cbn; lia|].
    split; [destruct neg, uf; now vm_compute|reflexivity].
  - assert (Hs : sane binary32) by (unfold sane; cbn; lia).
    assert (Hq : 0 < dyadic m e).
    { eapply Qlt_le_trans; [|exact Hl]. apply Qltb_iff. now vm_compute. }
    destruct (g_text_denotes (dyadic m e) Hq) as (d & X & D & E & Hd & N & HD & HE).
    pose proof (nearest6_bound _ _ _ 117550 (-43) ltac:(lia) Hl N) as Low.
    pose proof (no_overflow binary32 m e d (X - 5) (or_introl eq_refl) Hm N) as NO.
    assert (Low2 : 2 ^ (emin binary32 + prec binary32 - 1) <= inject_Z d * 10 ^ (X - 5)).
    { eapply Qle_trans; [|exact Low]. apply Qle_bool_iff. now vm_compute. }
    destruct (nearest_exists binary32 (inject_Z d * 10 ^ (X - 5)) Hs) as (m' & e' & NM);
      [eapply Qlt_le_trans; [apply pow2_pos|exact Low2]|exact NO|].
    destruct (relative_error_normal binary32 _ m' e' Hs ltac:(cbn; lia) Low2 NO NM) as [Rel Norm].
    exists m', e'. pose proof NM as [Hm' _]. split; [exact Hm'|].
    assert (Mz : forall k, (0 < k)%Z -> (k =? 0)%Z = false) by (intros; apply Z.eqb_neq; lia).
    assert (Mp : (0 < m)%Z).
    { destruct (Z_le_gt_dec m 0) as [L|G]; [|lia]. exfalso.
      assert (m = 0%Z) by (destruct Hm; lia). subst m. unfold dyadic in Hq. change (inject_Z 0) with 0 in Hq. lra. }
    assert (Mp' : (0 < m')%Z) by (cbn in Norm; lia).
    cbn [printf_g]. rewrite (Mz m Mp), (Mz m' Mp'). split.
    + apply floatFromString_spec; [exact Hs|].
      apply (conversion_number binary32 uf _ neg D m' e').
      * now apply signed_text.
      * unfold too_large in *. rewrite HE. exact NO.
      * eapply nearest_comp; [|exact NM]. now symmetry.
      * intros _ [Small _]. lia.
    + f_equal. rewrite (same_digits (inject_Z d * 10 ^ (X - 5)) m' e' d X Hd (Qeq_refl _) Rel).
      rewrite g_text_digits, E. reflexivity.
Qed.
