(** Correctness of floatFromString, and of the texts toString produces. *)
From Coq Require Import Ascii String NArith ZArith QArith Qround Qpower Qabs Lqa Bool PeanoNat Lia List.
Import ListNotations.
From Verif Require Import Base StringConv StringConvSpec StringConvProofs SerializerSpec
  FloatConv FloatConvSpec FloatArith FloatRound FloatScan.
Local Open Scope Q_scope.

Local Arguments Z.mul : simpl never.
Local Arguments Z.add : simpl never.
Local Arguments Z.sub : simpl never.
Local Arguments Z.opp : simpl never.

(** ** Signs of numbers *)

Lemma inject_nonneg z : (0 <= z)%Z -> 0 <= inject_Z z.
Proof. intros H. exact (inject_le 0 z H). Qed.

Lemma number_meaning_nonneg s q : unsigned_text s (Number q) -> 0 <= q.
Proof.
  intros H. inversion H as [? ? Hd|? ? Hx| | |]; subst.
  - destruct Hd as [ip ft fp ex z x Hft Hd Hex]. apply digits_nonneg in Hd.
    apply Qmult_le_0_compat; [now apply inject_nonneg|]. apply Qlt_le_weak, pow10_pos.
  - destruct Hx as [c ip ft fp ex z x Hc Hft Hd Hex]. apply xdigits_number in Hd.
    destruct Hd as (_ & Hd & ->).
    apply Qmult_le_0_compat; [apply inject_nonneg, number_nonneg; [lia|exact Hd]|].
    apply Qlt_le_weak, pow2_pos.
Qed.

(** ** The result for what was scanned *)

Definition finish (f : fmt) (uf neg : bool) (k : scanned) : fval * bool :=
  match k with
  | SInf => (Inf neg, false)
  | SNaN => (NaN neg, false)
  | SNum q =>
      if Qle_bool q 0 then (Fin neg 0 (emin f), false)
      else
        let '(m, e) := round_fmt f q in
        if (emax f <? e)%Z then (Inf neg, true)
        else (Fin neg m e, uf && (m <? 2 ^ (prec f - 1))%Z && negb (Qeq_bool (dyadic m e) q))
  end.

Definition signed_rest (s : bytes) : bool * bytes :=
  match s with
  | c :: r => if Ascii.eqb c "-" then (true, r)
              else if Ascii.eqb c "+" then (false, r) else (false, s)
  | [] => (false, s)
  end.

Lemma strtof_unfold f uf s :
  strtof_ f uf s =
  let '(neg, s2) := signed_rest (fst (skip_while isspace s 0)) in
  match scan_unsigned s2 with
  | None => (Fin false 0 (emin f), false, s)
  | Some (k, r) => (fst (finish f uf neg k), snd (finish f uf neg k), r)
  end.
Proof.
  unfold strtof_, signed_rest. destruct (skip_while isspace s 0) as [s1 n]. cbn [fst].
  set (ns := match s1 with [] => _ | _ => _ end). destruct ns as [neg s2].
  destruct (scan_unsigned s2) as [[k r]|]; [|reflexivity].
  destruct k as [q| |]; cbn [finish]; try reflexivity.
  destruct (Qle_bool q 0); [reflexivity|]. destruct (round_fmt f q) as [m e].
  destruct (emax f <? e)%Z; reflexivity.
Qed.

Lemma magnitude_zero f : sane f -> magnitude_in f 0 (emin f).
Proof.
  intros [Hp He]. repeat split; try lia.
Qed.

Lemma nearest_zero f q : sane f -> q == 0 -> nearest_magnitude f q 0 (emin f).
Proof.
  intros Hs Hq. split; [now apply magnitude_zero|]. intros m' e' Hm'.
  assert (E : q - inject_Z 0 * 2 ^ emin f == 0) by (rewrite Hq; change (inject_Z 0) with 0; ring).
  rewrite E. change (Qabs 0) with 0. split; [apply Qabs_nonneg|]. reflexivity.
Qed.

Lemma nearest_comp f q q' m e : q == q' -> nearest_magnitude f q m e -> nearest_magnitude f q' m e.
Proof.
  intros E [H1 H2]. split; [exact H1|]. intros m' e' H. destruct (H2 m' e' H) as [A B].
  rewrite E in A, B. split; assumption.
Qed.

Lemma finish_spec f uf neg q v : sane f -> 0 <= q ->
  (finish f uf neg (SNum q) = (v, false) <->
   exists m e, v = Fin neg m e /\ ~ too_large f q /\ nearest_magnitude f q m e /\
               (uf = true -> ~ too_small f q m e)).
Proof.
  intros Hs Hq. cbn [finish]. pose proof Hs as [Hp He].
  destruct (Qle_bool q 0) eqn:Z0.
  - apply Qle_bool_iff in Z0. assert (E : q == 0) by lra.
    split.
    + intros H. inversion H; subst. exists 0%Z, (emin f). split; [reflexivity|]. split.
      * unfold too_large. intros T. rewrite E in T.
        pose proof (pow2_pos (emax f)) as P.
        assert (A : 1 <= inject_Z (2 ^ prec f)).
        { change 1 with (inject_Z 1). apply inject_le. pose proof (Z.pow_pos_nonneg 2 (prec f)). lia. }
        assert (B : 0 < (inject_Z (2 ^ prec f) - (1 # 2)) * 2 ^ emax f) by (apply Qmult_lt_0_compat; lra).
        lra.
      * split; [now apply nearest_zero|]. intros _ [_ T]. apply T. rewrite E.
        change (inject_Z 0) with 0. ring.
    + intros (m & e & -> & _ & N & _).
      destruct (nearest_unique f q m e 0 (emin f) Hs N (nearest_zero f q Hs E)) as [-> ->]. reflexivity.
  - assert (Hq' : 0 < q).
    { apply Qnot_le_lt. intros H. apply Qle_bool_iff in H. congruence. }
    destruct (round_fmt f q) as [m0 e0] eqn:R.
    destruct (round_fmt_spec f q m0 e0 Hs Hq' R) as (TL & N & _).
    destruct (Z.ltb_spec (emax f) e0) as [L|L].
    + split; [discriminate|]. intros (m & e & _ & T & _). exfalso. apply T. now apply TL.
    + specialize (N L).
      assert (TS : (m0 <? 2 ^ (prec f - 1))%Z && negb (Qeq_bool (dyadic m0 e0) q) = true <->
                   too_small f q m0 e0).
      { unfold too_small. rewrite andb_true_iff, negb_true_iff, Z.ltb_lt. unfold dyadic.
        assert (Hb : Qeq_bool (inject_Z m0 * 2 ^ e0) q = false <-> ~ q == inject_Z m0 * 2 ^ e0).
        { split.
          - intros H X. symmetry in X. apply Qeq_bool_iff in X. congruence.
          - intros H. destruct (Qeq_bool (inject_Z m0 * 2 ^ e0) q) eqn:X; [|reflexivity].
            exfalso. apply H. symmetry. now apply Qeq_bool_iff. }
        rewrite Hb. reflexivity. }
      rewrite <- andb_assoc.
      split.
      * intros H. inversion H; subst. exists m0, e0. split; [reflexivity|]. split.
        { intros T. apply TL in T. lia. }
        split; [exact N|]. intros -> T. apply TS in T. rewrite T in *. discriminate.
      * intros (m & e & -> & _ & N' & T).
        destruct (nearest_unique f q m e m0 e0 Hs N' N) as [-> ->]. f_equal.
        destruct uf; [|reflexivity]. cbn [andb].
        destruct ((m0 <? 2 ^ (prec f - 1))%Z && negb (Qeq_bool (dyadic m0 e0) q)) eqn:X; [|reflexivity].
        exfalso. now apply (T eq_refl), TS.
Qed.

(** ** floatFromString *)

Lemma starts_facts c : starts c = true ->
  isspace c = false /\ Ascii.eqb c "-" = false /\ Ascii.eqb c "+" = false.
Proof. unfold starts. rewrite !andb_true_iff, !negb_true_iff. tauto. Qed.

Lemma strtof_app f uf s neg M : float_text s neg M ->
  exists k, meaning_of k = M /\
    strtof_ f uf s = (fst (finish f uf neg k), snd (finish f uf neg k), []).
Proof.
  intros [ws sg neg' s' M' Hws Hsg Hs].
  destruct (scan_unsigned_app s' M' Hs) as (k & Hk & HM).
  destruct (unsigned_starts s' M' Hs) as (c & r & Hcr & Hc). apply starts_facts in Hc.
  destruct Hc as (Hc1 & Hc2 & Hc3).
  exists k. split; [exact HM|]. rewrite strtof_unfold.
  apply blanks_forallb in Hws.
  assert (Hst : stops isspace (sg ++ s')).
  { destruct Hsg as [[-> _]|[[-> _]|[-> _]]]; cbn [app].
    - rewrite Hcr. exact Hc1.
    - reflexivity.
    - reflexivity. }
  rewrite (skip_while_app isspace ws (sg ++ s') 0 Hws Hst). cbn [fst].
  assert (Hsr : signed_rest (sg ++ s') = (neg', s')).
  { destruct Hsg as [[-> ->]|[[-> ->]|[-> ->]]]; cbn [app]; [|reflexivity..].
    rewrite Hcr. cbn [signed_rest]. now rewrite Hc2, Hc3. }
  rewrite Hsr, Hk. reflexivity.
Qed.

Lemma strtof_inv f uf s v er :
  s <> [] -> strtof_ f uf s = (v, er, []) ->
  exists neg k, float_text s neg (meaning_of k) /\ finish f uf neg k = (v, er).
Proof.
  intros Hne. rewrite strtof_unfold.
  destruct (split_while isspace s) as (ws & r & -> & Hws & Hr).
  rewrite (skip_while_app isspace ws r 0 Hws Hr). cbn [fst].
  assert (Main : forall sg neg s2,
    r = sg ++ s2 ->
    sg = [] /\ neg = false \/ sg = ["+"%char] /\ neg = false \/ sg = ["-"%char] /\ neg = true ->
    match scan_unsigned s2 with
    | None => (Fin false 0 (emin f), false, ws ++ r)
    | Some (k, r') => (fst (finish f uf neg k), snd (finish f uf neg k), r')
    end = (v, er, []) ->
    exists neg k, float_text (ws ++ r) neg (meaning_of k) /\ finish f uf neg k = (v, er)).
  { intros sg neg s2 -> Hsg. destruct (scan_unsigned s2) as [[k r']|] eqn:E.
    - intros H. inversion H; subst. apply scan_unsigned_inv in E. exists neg, k. split.
      + constructor; try easy. now apply blanks_forallb.
      + now destruct (finish f uf neg k).
    - intros H. inversion H as [[H1 H2 H3]]. congruence. }
  destruct r as [|c r]; cbn [signed_rest].
  - apply (Main [] false []); [reflexivity|now left].
  - destruct (Ascii.eqb_spec c "-") as [->|H1]; [|destruct (Ascii.eqb_spec c "+") as [->|H2]].
    + apply (Main ["-"%char] true r); [reflexivity|now right; right].
    + apply (Main ["+"%char] false r); [reflexivity|now right; left].
    + apply (Main [] false (c :: r)); [reflexivity|now left].
Qed.

Lemma float_text_nz s neg M : float_text s neg M -> forallb nz s = true /\ s <> [].
Proof.
  intros [ws sg neg' s' M' Hws Hsg Hs]. split.
  - apply blanks_forallb in Hws. rewrite !forallb_app, !andb_true_iff. repeat split.
    + apply (forallb_imp isspace nz ws); [by_bytes|exact Hws].
    + now destruct Hsg as [[-> _]|[[-> _]|[-> _]]].
    + exact (nz_unsigned s' M' Hs).
  - destruct (unsigned_starts s' M' Hs) as (c & r & -> & _). intros E.
    apply app_eq_nil in E. destruct E as [_ E]. apply app_eq_nil in E. now destruct E.
Qed.

Lemma floatFromString_spec f uf s v : sane f ->
  (floatFromString f uf s = Some v <-> conversion f uf s v).
Proof.
  intros Hs. split.
  - unfold floatFromString. destruct s as [|a s0]; [discriminate|]. set (s := a :: s0) in *.
    destruct (strtof_ f uf (c_str s)) as [[v' er] rest] eqn:E.
    destruct er; [discriminate|].
    destruct (Nat.eqb_spec (length (c_str s) - length rest) (length s)) as [L|]; [|discriminate].
    intros H. inversion H; subst v'.
    pose proof (c_str_length s) as CL.
    assert (Hls : (0 < length s)%nat) by (cbn; lia).
    assert (Hr : rest = []).
    { destruct rest; [reflexivity|]. cbn in L. cbn in CL, Hls. lia. }
    subst rest. assert (Hc : c_str s = s) by (apply c_str_full; cbn in L |- *; lia).
    rewrite Hc in E. apply strtof_inv in E; [|discriminate].
    destruct E as (neg & k & Ht & Hf). destruct k as [q| |]; cbn [meaning_of] in Ht.
    + assert (Hq : 0 <= q).
      { inversion Ht; subst. eapply number_meaning_nonneg; eauto. }
      apply finish_spec in Hf; [|easy..]. destruct Hf as (m & e & -> & T & N & U).
      econstructor; eauto.
    + inversion Hf; subst. now constructor.
    + inversion Hf; subst. now constructor.
  - intros H.
    assert (Main : forall neg M, float_text s neg M ->
      (forall k, meaning_of k = M -> finish f uf neg k = (v, false)) ->
      floatFromString f uf s = Some v).
    { intros neg M Ht Hf. destruct (float_text_nz s neg M Ht) as [Hz Hne].
      destruct (strtof_app f uf s neg M Ht) as (k & Hk & E). specialize (Hf k Hk).
      rewrite Hf in E. cbn [fst snd] in E. unfold floatFromString.
      assert (Hc : c_str s = s) by (apply c_str_nonul, nz_nonul, Hz).
      destruct s as [|a s0]; [easy|]. rewrite Hc, E. cbn [length]. rewrite Nat.sub_0_r, Nat.eqb_refl.
      reflexivity. }
    destruct H as [neg q m e Ht T N U|neg Ht|neg Ht].
    + apply (Main neg (Number q) Ht). intros k Hk. destruct k; inversion Hk; subst.
      assert (Hq : 0 <= q).
      { inversion Ht; subst. eapply number_meaning_nonneg; eauto. }
      apply finish_spec; [easy..|]. exists m, e. auto.
    + apply (Main neg Infinite Ht). intros k Hk. now destruct k.
    + apply (Main neg NotANumber Ht). intros k Hk. now destruct k.
Qed.

(** ** Printed digits *)

Lemma strip0_app l : exists n, l = strip0 l ++ repeat "0"%char n.
Proof.
  induction l as [|c l [n IH]]; [now exists 0%nat|]. cbn [strip0].
  destruct (strip0 l) as [|c' l'] eqn:E.
  - destruct (Ascii.eqb_spec c "0") as [->|].
    + exists (S n). cbn [app repeat]. cbn in IH. now rewrite IH at 1.
    + exists n. cbn [app]. cbn in IH. now rewrite IH at 1.
  - exists n. cbn [app]. f_equal. exact IH.
Qed.

Lemma number_app b s t : number b (s ++ t) = (number b s * b ^ Z.of_nat (length t) + number b t)%Z.
Proof.
  induction t as [|c t IH] using rev_ind.
  - rewrite app_nil_r. cbn. lia.
  - rewrite app_assoc, !number_snoc, IH, app_length. cbn [length].
    rewrite Nat2Z.inj_add, Z.pow_add_r by lia. change (Z.of_nat 1) with 1%Z. rewrite Z.pow_1_r. ring.
Qed.

Lemma number_zeros b n : number b (repeat "0"%char n) = 0%Z.
Proof.
  induction n as [|n IH]; [reflexivity|]. cbn [repeat].
  change ("0"%char :: repeat "0"%char n) with (["0"%char] ++ repeat "0"%char n).
  rewrite number_app, IH. cbn [number fold_left]. change (xdigit_val "0"%char) with 0%Z. lia.
Qed.

Lemma zeros_digits n : forallb isdigit (repeat "0"%char n) = true.
Proof. now induction n. Qed.

Lemma pow10_Z k : (0 <= k)%Z -> inject_Z (10 ^ k) == 10 ^ k. Proof. exact (pow_Z 10 k). Qed.

(** Trailing zeros of the fraction do not matter. *)
Lemma drop_zeros ip rest x :
  inject_Z (number 10 (ip ++ strip0 rest)) * 10 ^ (x - Z.of_nat (length (strip0 rest))) ==
  inject_Z (number 10 (ip ++ rest)) * 10 ^ (x - Z.of_nat (length rest)).
Proof.
  destruct (strip0_app rest) as [n Hn]. set (fp := strip0 rest) in *.
  rewrite Hn at 1 2. rewrite app_assoc, (number_app 10 (ip ++ fp)), number_zeros, app_length, repeat_length.
  rewrite Z.add_0_r, inject_Z_mult, pow10_Z by lia.
  replace (x - Z.of_nat (length fp))%Z
    with (Z.of_nat n + (x - Z.of_nat (length fp + n)))%Z by lia.
  rewrite pow10_add. ring.
Qed.

Lemma point_fraction l : fraction (point l) l.
Proof. destruct l; constructor. Qed.

Lemma strip0_digits l : forallb isdigit l = true -> forallb isdigit (strip0 l) = true.
Proof.
  intros H. destruct (strip0_app l) as [n Hn]. rewrite Hn, forallb_app, andb_true_iff in H. easy.
Qed.

Lemma exponent_text_ok X : exponent "e"%char (exponent_text X) X.
Proof.
  unfold exponent_text.
  set (ds := if (Z.abs X <? 10)%Z then _ else _).
  assert (Hd : digits ds (Z.abs X)).
  { destruct (dec_spec (Z.abs X) ltac:(lia)) as [D _]. unfold ds.
    destruct (Z.abs X <? 10)%Z; [|exact D].
    apply digits_number in D. destruct D as (D1 & D2 & D3).
    apply digits_number. split; [discriminate|]. split; [exact D2|].
    change ("0"%char :: dec (Z.abs X)) with (["0"%char] ++ dec (Z.abs X)).
    rewrite number_app, <- D3. cbn [number fold_left]. change (xdigit_val "0"%char) with 0%Z. lia. }
  destruct (Z.ltb_spec X 0) as [L|L].
  - clearbody ds. replace X with (- Z.abs X)%Z by lia.
    apply (exponent_some "e"%char "e"%char ["-"%char] Z.opp ds (Z.abs X)); [|constructor|exact Hd].
    constructor; [now left|constructor].
  - clearbody ds. replace X with (Z.abs X) by lia. replace (Z.abs X) with (Z.abs X) in Hd by lia.
    apply (exponent_some "e"%char "e"%char ["+"%char] (fun z => z) ds (Z.abs X)); [|constructor|exact Hd].
    constructor; [now left|constructor].
Qed.

Lemma number_bound s : forallb isdigit s = true -> (0 <= number 10 s < 10 ^ Z.of_nat (length s))%Z.
Proof.
  induction s as [|c s IH] using rev_ind; intros H; [cbn; lia|].
  rewrite forallb_app, andb_true_iff in H. destruct H as [H Hc]. cbn [forallb] in Hc.
  rewrite andb_true_r in Hc. specialize (IH H).
  rewrite number_snoc, app_length. cbn [length]. rewrite Nat2Z.inj_add, Z.pow_add_r by lia.
  change (Z.of_nat 1) with 1%Z. rewrite Z.pow_1_r. unfold xdigit_val. rewrite Hc.
  apply digit_val_range in Hc. lia.
Qed.

Lemma dec_six d : (100000 <= d <= 999999)%Z ->
  length (dec d) = 6%nat /\ forallb isdigit (dec d) = true /\ number 10 (dec d) = d.
Proof.
  intros Hd. destruct (dec_spec d ltac:(lia)) as (D & _ & Hh).
  destruct (Hh ltac:(lia)) as (h & Hh1 & Hh2).
  apply digits_number in D. destruct D as (Hne & HD & Hn).
  split; [|split; [exact HD|now symmetry]].
  destruct (dec d) as [|c s]; [easy|]. cbn in Hh2. inversion Hh2; subst c.
  assert (Hc : xdigit_val (digit_char h) = h).
  { pose proof (digit_char_digit h ltac:(lia)) as K. apply digit_isdigit in K. destruct K as [K1 K2].
    unfold xdigit_val. rewrite K1. now symmetry. }
  pose proof (number_bound _ HD) as [_ B].
  cbn [forallb] in HD. apply andb_true_iff in HD. destruct HD as [_ HD].
  pose proof (number_bound _ HD) as [B1 _].
  change (digit_char h :: s) with ([digit_char h] ++ s) in Hn. rewrite number_app in Hn.
  cbn [number fold_left] in Hn. rewrite Hc in Hn.
  replace (0 * 10 + h)%Z with h in Hn by lia.
  cbn [length] in *. clear Hne Hh2 Hh.
  assert (L1 : (5 <= length s)%nat).
  { destruct (le_lt_dec 5 (length s)) as [|L]; [easy|]. exfalso.
    assert (A : (10 ^ Z.of_nat (S (length s)) <= 10 ^ 5)%Z) by (apply Z.pow_le_mono_r; lia).
    change (digit_char h :: s) with ([digit_char h] ++ s) in B. rewrite number_app in B.
    cbn [number fold_left] in B. rewrite Hc in B. change (10 ^ 5)%Z with 100000%Z in A. lia. }
  assert (L2 : (length s <= 5)%nat).
  { destruct (le_lt_dec (length s) 5) as [|L]; [easy|]. exfalso.
    assert (A : (10 ^ 6 <= 10 ^ Z.of_nat (length s))%Z) by (apply Z.pow_le_mono_r; lia).
    change (10 ^ 6)%Z with 1000000%Z in A. nia. }
  lia.
Qed.

(** The text for six digits and an exponent. *)
Definition g_digits (d X : Z) : bytes :=
  let ds := dec d in
  if (X <? -4)%Z || (6 <=? X)%Z then
    firstn 1 ds ++ point (strip0 (skipn 1 ds)) ++ exponent_text X
  else if (X <? 0)%Z then
    "0"%char :: point (repeat "0"%char (Z.to_nat (- X - 1)) ++ strip0 ds)
  else firstn (Z.to_nat (X + 1)) ds ++ point (strip0 (skipn (Z.to_nat (X + 1)) ds)).

Lemma g_text_digits q : g_text q = g_digits (fst (digits6 q)) (snd (digits6 q)).
Proof. unfold g_text, g_digits. now destruct (digits6 q). Qed.

Lemma g_digits_denotes d X : (100000 <= d <= 999999)%Z ->
  exists q, decimal_text (g_digits d X) q /\ q == inject_Z d * 10 ^ (X - 5).
Proof.
  intros Hd. destruct (dec_six d Hd) as (Hl & Hds & Hn). unfold g_digits.
  set (ds := dec d) in *.
  destruct ((X <? -4)%Z || (6 <=? X)%Z) eqn:Style.
  - set (a := firstn 1 ds). set (r := skipn 1 ds).
    assert (Hdr : ds = a ++ r) by (symmetry; apply firstn_skipn).
    assert (Hla : length a = 1%nat) by (unfold a; rewrite firstn_length; lia).
    assert (Hlr : length r = 5%nat) by (unfold r; rewrite skipn_length; lia).
    pose proof Hds as Hds'. rewrite Hdr, forallb_app, andb_true_iff in Hds'. destruct Hds' as [Ha Hr].
    eexists. split.
    + apply (decimal_text_intro a (point (strip0 r)) (strip0 r) (exponent_text X)
               (number 10 (a ++ strip0 r)) X); [apply point_fraction| |apply exponent_text_ok].
      apply digits_number. split; [destruct a; easy|]. split; [|reflexivity].
      now rewrite forallb_app, Ha, strip0_digits.
    + rewrite drop_zeros, <- Hdr, Hn, Hlr. reflexivity.
  - apply orb_false_iff in Style. rewrite Z.ltb_ge, Z.leb_gt in Style.
    destruct (Z.ltb_spec X 0) as [Neg|Pos].
    + eexists. split.
      * rewrite <- (app_nil_r (point _)).
        apply (decimal_text_intro ["0"%char] (point (repeat "0"%char (Z.to_nat (- X - 1)) ++ strip0 ds))
                 (repeat "0"%char (Z.to_nat (- X - 1)) ++ strip0 ds) []
                 (number 10 (["0"%char] ++ repeat "0"%char (Z.to_nat (- X - 1)) ++ strip0 ds)) 0);
          [apply point_fraction| |constructor].
        apply digits_number. split; [discriminate|]. split; [|reflexivity].
        rewrite !forallb_app, zeros_digits, strip0_digits by easy. reflexivity.
      * rewrite app_length, repeat_length, Nat2Z.inj_add, Z2Nat.id by lia.
        rewrite !(number_app 10), number_zeros. change (number 10 ["0"%char]) with 0%Z.
        rewrite !Z.mul_0_l, !Z.add_0_l.
        pose proof (drop_zeros [] ds (X + 1)) as K. cbn [app] in K.
        replace (X + 1 - Z.of_nat (length (strip0 ds)))%Z
          with (0 - (- X - 1 + Z.of_nat (length (strip0 ds))))%Z in K by lia.
        etransitivity; [exact K|]. rewrite Hn, Hl.
        replace (X + 1 - Z.of_nat 6)%Z with (X - 5)%Z by lia. reflexivity.
    + set (j := Z.to_nat (X + 1)).
      set (a := firstn j ds). set (r := skipn j ds).
      assert (Hdr : ds = a ++ r) by (symmetry; apply firstn_skipn).
      assert (Hla : length a = j) by (unfold a; rewrite firstn_length; lia).
      assert (Hlr : length r = (6 - j)%nat) by (unfold r; rewrite skipn_length; lia).
      pose proof Hds as Hds'. rewrite Hdr, forallb_app, andb_true_iff in Hds'. destruct Hds' as [Ha Hr].
      eexists. split.
      * rewrite <- (app_nil_r (point _)).
        apply (decimal_text_intro a (point (strip0 r)) (strip0 r) []
                 (number 10 (a ++ strip0 r)) 0); [apply point_fraction| |constructor].
        apply digits_number. split; [destruct a; [cbn in Hla; lia|easy]|]. split; [|reflexivity].
        now rewrite forallb_app, Ha, strip0_digits.
      * rewrite drop_zeros, <- Hdr, Hn, Hlr.
        replace (0 - Z.of_nat (6 - j))%Z with (X - 5)%Z by lia. reflexivity.
Qed.
