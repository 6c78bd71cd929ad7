(** The texts of floating-point numbers are determined. *)
From Coq Require Import Ascii String NArith ZArith QArith Qabs Lqa Bool PeanoNat Lia List.
Import ListNotations.
From Verif Require Import Base LexerSpec StringConv StringConvSpec StringConvProofs FloatConv FloatConvSpec FloatRound FloatScan FloatConvProofs
  FloatRoundTrip UserTypesSpec UserTypesProofs ExecProofs FloatOps FloatOpsProofs FloatTextSpec.

Local Notation length := List.length.
Local Open Scope Q_scope.

(** * The nearest number with six digits *)

Lemma six_value d k d' k' : (100000 <= d <= 999999)%Z -> (100000 <= d' <= 999999)%Z ->
  inject_Z d * 10 ^ k == inject_Z d' * 10 ^ k' -> d = d' /\ k = k'.
Proof.
  enough (G : forall d k d' k', (100000 <= d <= 999999)%Z -> (100000 <= d' <= 999999)%Z ->
    inject_Z d * 10 ^ k == inject_Z d' * 10 ^ k' -> (k <= k')%Z -> d = d' /\ k = k').
  { intros H H' E. destruct (Z.le_ge_cases k k') as [L|L]; [now apply G|]. symmetry in E.
    destruct (G _ _ _ _ H' H E L) as [-> ->]. auto. }
  clear. intros d k d' k' H H' E L. replace k' with (k' - k + k)%Z in E by lia. rewrite pow10_add in E.
  rewrite Qmult_assoc in E. apply Qmult_inj_r in E; [|assert (P := pow10_pos k); lra].
  rewrite <- (pow10_Z (k' - k)), <- inject_Z_mult in E by lia. apply (proj1 (inject_Z_injective _ _)) in E.
  destruct (Z.eq_dec k k') as [->|N].
  - rewrite Z.sub_diag in E. cbn in E. lia.
  - exfalso. replace (k' - k)%Z with (1 + (k' - k - 1))%Z in E by lia. rewrite Z.pow_add_r in E by lia.
    assert (0 < 10 ^ (k' - k - 1))%Z by (apply Z.pow_pos_nonneg; lia). nia.
Qed.

Lemma nearest6_order q d k d' k' : nearest6 q d k -> nearest6 q d' k' -> ~ inject_Z d * 10 ^ k < inject_Z d' * 10 ^ k'.
Proof.
  intros [D N] [D' N'] L. assert (Ne : ~ inject_Z d * 10 ^ k == inject_Z d' * 10 ^ k') by lra.
  destruct (N d' k' ltac:(lia)) as [A Ev]. destruct (N' d k ltac:(lia)) as [A' Ev'].
  assert (E : Qabs (q - inject_Z d * 10 ^ k) == Qabs (q - inject_Z d' * 10 ^ k')) by (apply Qle_antisym; assumption).
  specialize (Ev E Ne). symmetry in E. specialize (Ev' E ltac:(intros X; apply Ne; now symmetry)).
  assert (P := pow10_pos k). assert (P' := pow10_pos k').
  assert (D9 : d <> 999999%Z) by (intros ->; discriminate Ev).
  destruct (N (d + 1)%Z k ltac:(lia)) as [B _]. destruct (N' (d + 1)%Z k ltac:(lia)) as [B' _].
  assert (W : inject_Z (d + 1) * 10 ^ k == inject_Z d * 10 ^ k + 10 ^ k) by (rewrite inject_Z_plus; change (inject_Z 1) with 1; ring).
  destruct (Qlt_le_dec (inject_Z (d + 1) * 10 ^ k) (inject_Z d' * 10 ^ k')) as [C|C].
  - (* a number between them is nearer *)
    set (v := inject_Z d * 10 ^ k) in *. set (v' := inject_Z d' * 10 ^ k') in *. set (w := inject_Z (d + 1) * 10 ^ k) in *.
    revert E B B'. apply Qabs_case; intros H1; apply Qabs_case; intros H2; apply Qabs_case; intros H3; lra.
  - apply Qle_lteq in C. destruct C as [C|C].
    + destruct (Z.le_gt_cases k k') as [Lk|Lk].
      * replace k' with (k' - k + k)%Z in L, C by lia. rewrite pow10_add, Qmult_assoc, <- (pow10_Z (k' - k)), <- inject_Z_mult in L, C by lia.
        apply Qmult_lt_r in L; [|exact P]. apply Qmult_lt_r in C; [|exact P]. rewrite <- Zlt_Qlt in L, C. lia.
      * revert L. apply Qle_not_lt. replace k with (1 + (k - 1))%Z by lia. rewrite pow10_add.
        assert (T := pow10_le k' (k - 1) ltac:(lia)). change (10 ^ 1) with 10. rewrite Qmult_assoc.
        apply Qle_trans with (inject_Z d' * 10 ^ (k - 1)).
        -- apply Qmult_le_l; [|exact T]. apply (inject_lt 0). lia.
        -- apply Qmult_le_compat_r; [|assert (Q := pow10_pos (k - 1)); lra]. change 10 with (inject_Z 10). rewrite <- inject_Z_mult. apply inject_le. lia.
    + symmetry in C. destruct (six_value (d + 1) k d' k' ltac:(lia) D' C) as [<- <-].
      rewrite Z.add_1_r, Z.even_succ, <- Z.negb_even, Ev in Ev'. discriminate Ev'.
Qed.

Lemma nearest6_unique q d k d' k' : nearest6 q d k -> nearest6 q d' k' -> d = d' /\ k = k'.
Proof.
  intros N N'. apply six_value; [apply N|apply N'|].
  assert (A := nearest6_order _ _ _ _ _ N N'). assert (B := nearest6_order _ _ _ _ _ N' N). lra.
Qed.

(** * The text of a number *)

Lemma number_inj s t : length s = length t -> forallb isdigit s = true -> forallb isdigit t = true ->
  number 10 s = number 10 t -> s = t.
Proof.
  intros L S T E. rewrite <- (padded_number s S), <- (padded_number t T), L, E. reflexivity.
Qed.

Lemma digits_inj s t z : length s = length t -> digits s z -> digits t z -> s = t.
Proof.
  intros L S T. apply digits_number in S, T. destruct S as (_ & S & ->), T as (_ & T & E). now apply number_inj.
Qed.

(** A number that does not end in 0. *)
Lemma last_not_zero s c z : digits (s ++ [c]) z -> c <> "0"%char -> (z mod 10 <> 0)%Z.
Proof.
  intros H N E. apply digits_number in H. destruct H as (_ & H & ->). rewrite forallb_app in H. apply andb_true_iff in H.
  destruct H as [_ H]. cbn [forallb] in H. rewrite andb_true_r in H.
  rewrite number_app in E. cbn [length Z.of_nat Pos.of_succ_nat] in E. change (10 ^ 1)%Z with 10%Z in E.
  rewrite Z.add_comm, Z.mod_add in E by lia.
  assert (X : number 10 [c] = number 10 ["0"%char]).
  { change (number 10 ["0"%char]) with 0%Z. assert (B := number_bound [c]). cbn [forallb] in B. rewrite H in B. specialize (B eq_refl).
    change (10 ^ Z.of_nat (length [c]))%Z with 10%Z in B. rewrite Z.mod_small in E by lia. exact E. }
  apply number_inj in X; [|reflexivity|cbn [forallb]; now rewrite H|reflexivity]. injection X as ->. now apply N.
Qed.

Lemma short_ends ft fp : short_fraction ft fp -> fp <> [] -> exists f c, fp = f ++ [c] /\ c <> "0"%char.
Proof. intros [|f c N] H; [now elim H|]. now exists f, c. Qed.
Lemma short_point ft fp : short_fraction ft fp -> ft = point fp.
Proof. intros [|f c N]; [reflexivity|]. now destruct f. Qed.
Lemma short_same ft ft' fp : short_fraction ft fp -> short_fraction ft' fp -> ft = ft'.
Proof. intros S S'. now rewrite (short_point _ _ S), (short_point _ _ S'). Qed.

(** Two fractions for the same number have the same length. *)
Lemma same_length hd hd' ft ft' fp fp' n n' (x : Z) : short_fraction ft fp -> short_fraction ft' fp' ->
  digits (hd ++ fp) n -> digits (hd' ++ fp') n' ->
  inject_Z n * 10 ^ (x - Z.of_nat (length fp)) == inject_Z n' * 10 ^ (x - Z.of_nat (length fp')) ->
  length fp = length fp' /\ n = n'.
Proof.
  enough (G : forall hd hd' ft ft' fp fp' n n', short_fraction ft fp -> short_fraction ft' fp' ->
    digits (hd ++ fp) n -> digits (hd' ++ fp') n' ->
    inject_Z n * 10 ^ (x - Z.of_nat (length fp)) == inject_Z n' * 10 ^ (x - Z.of_nat (length fp')) ->
    (length fp <= length fp')%nat -> length fp = length fp' /\ n = n').
  { intros S S' D D' E. destruct (Nat.le_ge_cases (length fp) (length fp')) as [L|L]; [now apply (G hd hd' ft ft')|].
    symmetry in E. destruct (G hd' hd ft' ft _ _ _ _ S' S D' D E L). auto. }
  clear. intros hd hd' ft ft' fp fp' n n' S S' D D' E L.
  set (y := (x - Z.of_nat (length fp'))%Z) in *.
  replace (x - Z.of_nat (length fp))%Z with (Z.of_nat (length fp' - length fp) + y)%Z in E by (unfold y; lia).
  rewrite pow10_add, Qmult_assoc in E. apply Qmult_inj_r in E; [|assert (P := pow10_pos y); lra].
  rewrite <- pow10_Z, <- inject_Z_mult in E by lia. apply (proj1 (inject_Z_injective _ _)) in E.
  destruct (length fp' - length fp)%nat as [|j] eqn:J.
  - cbn in E. split; [lia|lia].
  - exfalso. assert (N : fp' <> []) by (intros ->; cbn in J; lia).
    destruct (short_ends _ _ S' N) as (f & c & -> & Nc). rewrite app_assoc in D'.
    apply (last_not_zero _ _ _ D' Nc). rewrite <- E, Nat2Z.inj_succ, Z.pow_succ_r by lia.
    replace (n * (10 * 10 ^ Z.of_nat j))%Z with (n * 10 ^ Z.of_nat j * 10)%Z by ring. apply Z.mod_mul. lia.
Qed.

Lemma canonical_digits z s : (0 <= z)%Z -> canonical z s -> digits s z.
Proof. intros H C. destruct C as [|z' c ds P D N|z' ds P C]; [exact (digits_one _ _ (digit_intro 0 (Nat.lt_0_succ 9)))|exact D|lia]. Qed.
Lemma canonical_nonneg z s t n : canonical z s -> digits (s ++ t) n -> (0 <= z)%Z.
Proof.
  intros Ca H. destruct Ca as [|z' c ds P D N|z' ds P C]; [lia|lia|]. exfalso. apply digits_number in H. destruct H as (_ & H & _). discriminate H.
Qed.

Lemma canonical_same z a b : canonical z a -> canonical z b -> a = b.
Proof.
  destruct (Z_lt_le_dec z 0) as [L|L]; [|now apply canonical_unique].
  intros A B. inversion A; subst; [lia|lia|]. inversion B; subst; [lia|lia|].
  assert (z = z0) by lia. subst z0. f_equal. apply (canonical_unique z); [lia|assumption..].
Qed.

Lemma exponent_same X a b : signed_exponent X a -> signed_exponent X b -> a = b.
Proof.
  intros [x ds C L|x c C] H; inversion H as [x' ds' C' L' E|x' c' C' E]; subst.
  - now rewrite (canonical_same _ _ _ C C').
  - assert (Q := canonical_same _ _ _ C C'). subst ds. cbn in L. lia.
  - assert (Q := canonical_same _ _ _ C C'). subst ds'. cbn in L'. lia.
  - assert (Q := canonical_same _ _ _ C C'). now injection Q as ->.
Qed.

Lemma general_unique d k s t : general_text d k s -> general_text d k t -> s = t.
Proof.
  intros [z ip ft fp n R Ca S D V|c ft fp n ex R Nc S D Ex V] H;
    destruct H as [z' ip' ft' fp' n' R' Ca' S' D' V'|c' ft' fp' n' ex' R' Nc' S' D' Ex' V']; try contradiction.
  - assert (E : inject_Z n * 10 ^ (0 - Z.of_nat (length fp)) == inject_Z n' * 10 ^ (0 - Z.of_nat (length fp'))).
    { cbn [Z.sub Z.add]. now rewrite V, V'. }
    destruct (same_length _ _ _ _ _ _ _ _ _ S S' D D' E) as [L <-].
    assert (P := canonical_nonneg _ _ _ _ Ca D). assert (P' := canonical_nonneg _ _ _ _ Ca' D').
    assert (A := canonical_digits _ _ P Ca). assert (A' := canonical_digits _ _ P' Ca').
    assert (Ez : z = z').
    { apply digits_number in A, A', D, D'. destruct A as (_ & _ & ->), A' as (_ & _ & ->), D as (_ & D & E1), D' as (_ & D' & E2).
      rewrite number_app in E1, E2. rewrite forallb_app in D, D'. apply andb_true_iff in D, D'.
      assert (B := number_bound fp (proj2 D)). assert (B' := number_bound fp' (proj2 D')). rewrite <- L in *. nia. }
    subst z'. rewrite <- (canonical_same _ _ _ Ca Ca') in *. f_equal.
    assert (F : ip ++ fp = ip ++ fp') by (apply (digits_inj _ _ n); [rewrite !app_length; lia|exact D|exact D']).
    apply app_inv_head in F. subst fp'. exact (short_same _ _ _ S S').
  - change (c :: fp) with ([c] ++ fp) in D. change (c' :: fp') with ([c'] ++ fp') in D'.
    assert (E : inject_Z n * 10 ^ (k + 5 - Z.of_nat (length fp)) == inject_Z n' * 10 ^ (k + 5 - Z.of_nat (length fp'))) by now rewrite V, V'.
    destruct (same_length _ _ _ _ _ _ _ _ _ S S' D D' E) as [L <-].
    assert (F : [c] ++ fp = [c'] ++ fp') by (apply (digits_inj _ _ n); [cbn; lia|exact D|exact D']).
    injection F as <- <-. now rewrite (short_same _ _ _ S S'), (exponent_same _ _ _ Ex Ex').
Qed.

(** ** The text that is written *)

Lemma strip0_short l : short_fraction (point (strip0 l)) (strip0 l).
Proof.
  assert (G : strip0 l = [] \/ exists f c, strip0 l = f ++ [c] /\ c <> "0"%char).
  { induction l as [|c l IH]; [now left|]. cbn [strip0]. destruct (strip0 l) as [|c' l'].
    - destruct (Ascii.eqb_spec c "0") as [->|N]; [now left|]. right. now exists [], c.
    - right. destruct IH as [IH|(f & e & E & N)]; [discriminate IH|]. exists (c :: f), e. now rewrite E. }
  destruct G as [->|(f & c & -> & N)]; [constructor|]. destruct f; now apply (short_some _ c).
Qed.

Lemma exponent_written X : signed_exponent X (exponent_text X).
Proof.
  unfold exponent_text. assert (C := dec_canonical (Z.abs X) (Z.abs_nonneg X)).
  destruct (Z.ltb_spec (Z.abs X) 10) as [L|L].
  - assert (exists c, dec (Z.abs X) = [c]) as (c & E).
    { assert (G : (Z.abs X = 0 \/ Z.abs X = 1 \/ Z.abs X = 2 \/ Z.abs X = 3 \/ Z.abs X = 4 \/ Z.abs X = 5 \/ Z.abs X = 6 \/ Z.abs X = 7 \/
        Z.abs X = 8 \/ Z.abs X = 9)%Z) by lia.
      repeat (destruct G as [G|G]; [rewrite G; eexists; reflexivity|]). rewrite G. eexists. reflexivity. }
    rewrite E in *. now apply signed_exponent_short.
  - apply signed_exponent_intro; [exact C|].
    assert (D := canonical_digits _ _ (Z.abs_nonneg X) C). apply digits_number in D. destruct D as (Ne & D & E).
    assert (B := number_bound _ D). destruct (dec (Z.abs X)) as [|a [|b r]]; [now elim Ne| |cbn; lia].
    cbn [length] in B. change (10 ^ Z.of_nat 1)%Z with 10%Z in B. lia.
Qed.

Lemma head_not_zero s z : digits s z -> (10 ^ (Z.of_nat (length s) - 1) <= z)%Z -> exists c r, s = c :: r /\ c <> "0"%char.
Proof.
  intros D H. apply digits_number in D. destruct D as (N & D & ->). destruct s as [|c r]; [now elim N|]. exists c, r. split; [reflexivity|].
  intros ->. change ("0"%char :: r) with (["0"%char] ++ r) in H, D. rewrite number_app, forallb_app in *. apply andb_true_iff in D.
  assert (B := number_bound r (proj2 D)). change (number 10 ["0"%char]) with 0%Z in H. cbn [length] in H.
  cbn [app length] in H. rewrite Nat2Z.inj_succ in H. replace (Z.succ (Z.of_nat (length r)) - 1)%Z with (Z.of_nat (length r)) in H by lia. lia.
Qed.

Lemma six_head d : (100000 <= d <= 999999)%Z -> exists c r, dec d = c :: r /\ c <> "0"%char.
Proof.
  intros H. destruct (dec_six d H) as (L & D & N). apply (head_not_zero _ d).
  - apply digits_number. split; [intros E; rewrite E in L; discriminate L|]. split; [exact D|now symmetry].
  - rewrite L. change (10 ^ (Z.of_nat 6 - 1))%Z with 100000%Z. lia.
Qed.

Lemma written d k : (100000 <= d <= 999999)%Z -> general_text d k (g_digits d (k + 5)).
Proof.
  intros Hd. destruct (dec_six d Hd) as (Hl & Hds & Hn). destruct (six_head d Hd) as (c & r & Ec & Nc). unfold g_digits.
  set (ds := dec d) in *.
  destruct ((k + 5 <? -4)%Z || (6 <=? k + 5)%Z) eqn:Style.
  - apply orb_true_iff in Style. rewrite Z.ltb_lt, Z.leb_le in Style. rewrite Ec in *. cbn [firstn skipn app].
    cbn [forallb] in Hds. apply andb_true_iff in Hds. destruct Hds as [Hc Hr]. cbn [length] in Hl.
    apply (general_exponent d k c (point (strip0 r)) (strip0 r) (number 10 (c :: strip0 r)) _); [lia|exact Nc|apply strip0_short| |apply exponent_written|].
    + apply digits_number. split; [discriminate|]. split; [|reflexivity]. cbn [forallb]. now rewrite Hc, strip0_digits.
    + assert (W := drop_zeros [c] r (k + 5)). cbn [app] in W. rewrite W, Hn. replace (k + 5 - Z.of_nat (length r))%Z with k by lia. reflexivity.
  - apply orb_false_iff in Style. rewrite Z.ltb_ge, Z.leb_gt in Style.
    destruct (Z.ltb_spec (k + 5) 0) as [Neg|Pos].
    + set (zs := repeat "0"%char (Z.to_nat (- (k + 5) - 1))).
      assert (Ss : exists f e, strip0 ds = f ++ [e] /\ e <> "0"%char).
      { apply (short_ends _ _ (strip0_short ds)). rewrite Ec. cbn [strip0]. destruct (strip0 r); [|discriminate].
        destruct (Ascii.eqb_spec c "0"); [contradiction|discriminate]. }
      change ("0"%char :: point (zs ++ strip0 ds)) with (["0"%char] ++ point (zs ++ strip0 ds)).
      apply (general_plain d k 0 ["0"%char] _ (zs ++ strip0 ds) (number 10 (["0"%char] ++ zs ++ strip0 ds))); [lia|constructor| | |].
      * destruct Ss as (f & e & -> & Ne). rewrite app_assoc. assert (T := short_some (zs ++ f) e Ne). rewrite (short_point _ _ T) in T. exact T.
      * apply digits_number. split; [discriminate|]. split; [|reflexivity]. unfold zs. rewrite !forallb_app, zeros_digits, strip0_digits by easy. reflexivity.
      * unfold zs. rewrite app_length, repeat_length, Nat2Z.inj_add, Z2Nat.id by lia.
        rewrite !(number_app 10), number_zeros. change (number 10 ["0"%char]) with 0%Z.
        rewrite !Z.mul_0_l, !Z.add_0_l.
        pose proof (drop_zeros [] ds (k + 5 + 1)) as K. cbn [app] in K.
        replace (k + 5 + 1 - Z.of_nat (length (strip0 ds)))%Z with (- (- (k + 5) - 1 + Z.of_nat (length (strip0 ds))))%Z in K by lia.
        etransitivity; [exact K|]. rewrite Hn, Hl. replace (k + 5 + 1 - Z.of_nat 6)%Z with k by lia. reflexivity.
    + set (j := Z.to_nat (k + 5 + 1)).
      set (a := firstn j ds). set (t := skipn j ds).
      assert (Hdr : ds = a ++ t) by (symmetry; apply firstn_skipn).
      assert (Hla : length a = j) by (unfold a; rewrite firstn_length; lia).
      assert (Hlr : length t = (6 - j)%nat) by (unfold t; rewrite skipn_length; lia).
      pose proof Hds as Hds'. rewrite Hdr, forallb_app, andb_true_iff in Hds'. destruct Hds' as [Ha Hr].
      apply (general_plain d k (number 10 a) a (point (strip0 t)) (strip0 t) (number 10 (a ++ strip0 t))); [lia| |apply strip0_short| |].
      * assert (Da : digits a (number 10 a)).
        { apply digits_number. split; [intros E; rewrite E in Hla; cbn in Hla; lia|]. now split. }
        assert (exists a', a = c :: a') as (a' & Ea).
        { unfold a. rewrite Ec. destruct j eqn:J; [lia|]. now eexists. }
        rewrite Ea in *. constructor; [|exact Da|exact Nc].
        assert (B := number_bound _ Ha). destruct (Z.eq_dec (number 10 (c :: a')) 0) as [Z0|]; [|lia]. exfalso.
        apply Nc. assert (I := number_inj (c :: a') (repeat "0"%char (length (c :: a')))).
        rewrite repeat_length, zeros_digits, number_zeros in I. specialize (I eq_refl Ha eq_refl Z0). cbn in I. now injection I.
      * apply digits_number. split; [destruct a; [cbn in Hla; lia|easy]|]. split; [|reflexivity].
        now rewrite forallb_app, Ha, strip0_digits.
      * assert (W := drop_zeros a t 0). rewrite <- Hdr, Hn, Hlr in W. replace (0 - Z.of_nat (6 - j))%Z with k in W by lia.
        replace (- Z.of_nat (length (strip0 t)))%Z with (0 - Z.of_nat (length (strip0 t)))%Z by lia. exact W.
Qed.

Lemma g_text_iff q s : 0 < q -> (g_text q = s <-> exists d k, nearest6 q d k /\ general_text d k s).
Proof.
  intros P. destruct (g_text_denotes q P) as (d & X & _ & E & Hd & N & _). rewrite g_text_digits, E. cbn [fst snd].
  assert (W := written d (X - 5) Hd). replace (X - 5 + 5)%Z with X in W by lia. split.
  - intros <-. now exists d, (X - 5)%Z.
  - intros (d' & k' & N' & T). destruct (nearest6_unique _ _ _ _ _ N N') as [<- <-]. exact (general_unique _ _ _ _ W T).
Qed.

Lemma minus_sign neg s : minus neg s = sign_text neg ++ s.
Proof. now destruct neg. Qed.

Lemma printf_g_iff v s : (forall neg m e, v = Fin neg m e -> (0 <= m)%Z) -> (printf_g v = s <-> shows_general v s).
Proof.
  intros H. destruct v as [neg m e|neg|neg]; cbn [printf_g].
  - specialize (H _ _ _ eq_refl). destruct (Z.eqb_spec m 0) as [->|N].
    + rewrite minus_sign. split; [intros <-; constructor|]. intros S. inversion S; subst; [reflexivity|lia].
    + assert (Q : 0 < dyadic m e) by (apply dyadic_pos; lia). split.
      * intros <-. destruct (proj1 (g_text_iff (dyadic m e) _ Q) eq_refl) as (d & k & Nd & G).
        rewrite minus_sign. now apply (shows_general_number neg m e d k); [lia| |].
      * intros S. inversion S; subst; [lia|]. rewrite minus_sign. f_equal. apply g_text_iff; [exact Q|]. now exists d, k.
  - rewrite minus_sign. split; [intros <-; constructor|]. intros S. now inversion S.
  - rewrite minus_sign. split; [intros <-; constructor|]. intros S. now inversion S.
Qed.
