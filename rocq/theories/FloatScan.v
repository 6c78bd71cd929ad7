(** Correctness of the scanner of FloatConv.v with respect to the grammar of
    FloatConvSpec.v. *)
From Coq Require Import Ascii String NArith ZArith QArith Qround Qpower Qabs Lqa Bool PeanoNat Lia List.
Import ListNotations.
From Verif Require Import Base StringConv StringConvSpec StringConvProofs SerializerSpec
  FloatConv FloatConvSpec FloatArith FloatRound.
Local Open Scope nat_scope.

Local Arguments Z.mul : simpl never.
Local Arguments Z.add : simpl never.
Local Arguments Z.sub : simpl never.

(** ** Bytes *)

Lemma all_bytes (P : byte -> bool) :
  forallb P (map ascii_of_nat (seq 0 256)) = true -> forall c, P c = true.
Proof.
  intros H. apply byte_cases. intros n Hn. rewrite forallb_forall in H. apply H.
  apply in_map, in_seq. lia.
Qed.

(** [p] implies [q], by inspection of all bytes. *)
Lemma bytes_imply (p q : byte -> bool) :
  forallb (fun c => implb (p c) (q c)) (map ascii_of_nat (seq 0 256)) = true ->
  forall c, p c = true -> q c = true.
Proof. intros H c Hp. pose proof (all_bytes _ H c) as K. cbn in K. now rewrite Hp in K. Qed.

Ltac by_bytes := apply bytes_imply; vm_compute; reflexivity.

Definition letter (l : byte) : Prop := (97 <= nat_of_ascii l <= 122)%nat.

Lemma nat_inj c l : nat_of_ascii c = nat_of_ascii l -> c = l.
Proof. intros E. rewrite <- (ascii_nat_embedding c), <- (ascii_nat_embedding l). now rewrite E. Qed.

Lemma lower_nat c : nat_of_ascii (lower c) =
  if (65 <=? nat_of_ascii c) && (nat_of_ascii c <=? 90) then nat_of_ascii c + 32 else nat_of_ascii c.
Proof.
  unfold lower. rewrite uchar_nat. pose proof (nat_ascii_bounded c) as B.
  destruct (Nat.leb_spec 65 (nat_of_ascii c)); destruct (N.leb_spec 65 (N.of_nat (nat_of_ascii c)));
    try lia; cbn [andb]; try reflexivity.
  destruct (Nat.leb_spec (nat_of_ascii c) 90); destruct (N.leb_spec (N.of_nat (nat_of_ascii c)) 90);
    try lia; try reflexivity.
  unfold nat_of_ascii at 1. rewrite N_ascii_embedding by lia. lia.
Qed.

Lemma lower_letter c l : letter l -> (lower c = l <-> c = l \/ nat_of_ascii c + 32 = nat_of_ascii l).
Proof.
  intros Hl. unfold letter in Hl. split.
  - intros E. pose proof (lower_nat c) as H. rewrite E in H.
    destruct (Nat.leb_spec 65 (nat_of_ascii c)); destruct (Nat.leb_spec (nat_of_ascii c) 90);
      cbn [andb] in H; [right; lia|left; apply nat_inj; lia..].
  - intros H. apply nat_inj. rewrite lower_nat. destruct H as [->|H].
    + destruct (Nat.leb_spec 65 (nat_of_ascii l)); destruct (Nat.leb_spec (nat_of_ascii l) 90);
        cbn [andb]; lia.
    + destruct (Nat.leb_spec 65 (nat_of_ascii c)); destruct (Nat.leb_spec (nat_of_ascii c) 90);
        cbn [andb]; lia.
Qed.

Lemma spells_one c l : letter l -> (spells [c] [l] <-> lower c = l).
Proof.
  intros Hl. rewrite lower_letter by easy. unfold spells. split.
  - intros H. now inversion H.
  - intros H. now constructor.
Qed.

(** ** Words *)

Lemma spells_length s w : spells s w -> length s = length w.
Proof. unfold spells. induction 1; cbn; congruence. Qed.

Lemma strip_word_app w p r : Forall letter w -> spells p w -> strip_word w (p ++ r) = Some r.
Proof.
  intros Hw Hs. unfold spells in Hs. induction Hs as [|c l p w H Hs IH]; [reflexivity|].
  inversion Hw as [|? ? Hl Hw']; subst. cbn [app strip_word].
  apply lower_letter in H; [|exact Hl]. rewrite H, Ascii.eqb_refl. now apply IH.
Qed.

Lemma strip_word_inv w s r : Forall letter w -> strip_word w s = Some r ->
  exists p, s = p ++ r /\ spells p w.
Proof.
  revert s. induction w as [|l w IH]; intros s Hw E.
  - cbn in E. inversion E; subst. exists []. split; [reflexivity|constructor].
  - inversion Hw as [|? ? Hl Hw']; subst. destruct s as [|c s]; [discriminate|].
    cbn in E. destruct (Ascii.eqb_spec l (lower c)) as [X|X]; [|discriminate].
    destruct (IH s Hw' E) as (p & -> & Hp). exists (c :: p). split; [reflexivity|].
    constructor; [|exact Hp]. now apply lower_letter.
Qed.

Lemma letters w : forallb (fun l => (97 <=? nat_of_ascii l) && (nat_of_ascii l <=? 122)) w = true ->
  Forall letter w.
Proof.
  rewrite forallb_forall, Forall_forall. intros H l Hl. specialize (H l Hl).
  rewrite andb_true_iff, !Nat.leb_le in H. exact H.
Qed.

Lemma letters_inf : Forall letter (lit "inf"). Proof. now apply letters. Qed.
Lemma letters_infinity : Forall letter (lit "infinity"). Proof. now apply letters. Qed.
Lemma letters_nan : Forall letter (lit "nan"). Proof. now apply letters. Qed.
Lemma letter_x : letter "x"%char. Proof. unfold letter; cbn; lia. Qed.
Lemma letter_e : letter "e"%char. Proof. unfold letter; cbn; lia. Qed.
Lemma letter_p : letter "p"%char. Proof. unfold letter; cbn; lia. Qed.

(** ** Spans *)

Definition stops (p : byte -> bool) (s : bytes) : Prop :=
  match s with c :: _ => p c = false | [] => True end.

Lemma span_app p a b : forallb p a = true -> stops p b -> span p (a ++ b) = (a, b).
Proof.
  intros Ha Hb. induction a as [|c a IH]; cbn in *.
  - destruct b as [|c b]; cbn in *; [reflexivity|]. now rewrite Hb.
  - apply andb_true_iff in Ha. destruct Ha as [-> Ha]. now rewrite IH.
Qed.

Lemma span_inv p s a b : span p s = (a, b) -> s = a ++ b /\ forallb p a = true /\ stops p b.
Proof.
  revert a b. induction s as [|c s IH]; intros a b E; cbn in E.
  - inversion E; subst. now cbn.
  - destruct (p c) eqn:Hc.
    + destruct (span p s) as [a' b'] eqn:E'. inversion E; subst.
      destruct (IH _ _ eq_refl) as (-> & Ha & Hb). cbn. now rewrite Hc.
    + inversion E; subst. now cbn.
Qed.

(** ** Digits *)

Lemma number10 s : forallb isdigit s = true -> number 10 s = dval s 0%Z.
Proof.
  unfold number, dval. generalize 0%Z as acc. induction s as [|c s IH]; intros acc H; cbn in *; [reflexivity|].
  apply andb_true_iff in H. destruct H as [Hc H]. unfold xdigit_val at 2. rewrite Hc. now apply IH.
Qed.

Lemma digits_number s z : digits s z <-> s <> [] /\ forallb isdigit s = true /\ z = number 10 s.
Proof.
  rewrite digits_dval. split; intros (H1 & H2 & H3); repeat split; try easy;
    [now rewrite number10|now rewrite <- number10].
Qed.

Lemma xdigit_isxdigit c d : xdigit c d -> isxdigit c = true /\ d = xdigit_val c.
Proof.
  intros H. destruct H as [c d H|n Hn|n Hn].
  - apply digit_isdigit in H. destruct H as [H ->]. unfold isxdigit, xdigit_val. now rewrite H.
  - do 6 (destruct n as [|n]; [now vm_compute|]). lia.
  - do 6 (destruct n as [|n]; [now vm_compute|]). lia.
Qed.

Lemma isxdigit_xdigit c : isxdigit c = true -> xdigit c (xdigit_val c).
Proof.
  intros H. destruct (isdigit c) eqn:D.
  - unfold xdigit_val. rewrite D. constructor. now apply isdigit_digit.
  - assert (K : (97 <=? nat_of_ascii c) && (nat_of_ascii c <=? 102) ||
                (65 <=? nat_of_ascii c) && (nat_of_ascii c <=? 70) = true).
    { revert D. revert c H.
      assert (G : forall c, isxdigit c && negb (isdigit c) = true ->
                (97 <=? nat_of_ascii c) && (nat_of_ascii c <=? 102) ||
                (65 <=? nat_of_ascii c) && (nat_of_ascii c <=? 70) = true) by by_bytes.
      intros c H D. apply G. now rewrite H, D. }
    rewrite orb_true_iff, !andb_true_iff, !Nat.leb_le in K.
    rewrite <- (ascii_nat_embedding c). destruct K as [K|K].
    + replace (nat_of_ascii c) with (97 + (nat_of_ascii c - 97)) by lia.
      assert (Hn : nat_of_ascii c - 97 < 6) by lia. revert Hn. generalize (nat_of_ascii c - 97).
      intros n Hn. replace (xdigit_val (ascii_of_nat (97 + n))) with (Z.of_nat (10 + n)); [now apply xdigit_low|].
      do 6 (destruct n as [|n]; [now vm_compute|]). lia.
    + replace (nat_of_ascii c) with (65 + (nat_of_ascii c - 65)) by lia.
      assert (Hn : nat_of_ascii c - 65 < 6) by lia. revert Hn. generalize (nat_of_ascii c - 65).
      intros n Hn. replace (xdigit_val (ascii_of_nat (65 + n))) with (Z.of_nat (10 + n)); [now apply xdigit_up|].
      do 6 (destruct n as [|n]; [now vm_compute|]). lia.
Qed.

Lemma number_snoc b s c : number b (s ++ [c]) = (number b s * b + xdigit_val c)%Z.
Proof. unfold number. now rewrite fold_left_app. Qed.

Lemma xdigits_number s z : xdigits s z <-> s <> [] /\ forallb isxdigit s = true /\ z = number 16 s.
Proof.
  split.
  - induction 1 as [c d H|s c z d H (Hn & Hd & ->) Hc].
    + apply xdigit_isxdigit in H. destruct H as [H ->]. cbn [forallb]. rewrite H.
      repeat split; try easy.
    + apply xdigit_isxdigit in Hc. destruct Hc as [Hc ->].
      rewrite forallb_app, number_snoc, Hd. cbn [forallb andb]. rewrite Hc.
      repeat split; [now destruct s|lia].
  - revert z. induction s as [|c s IH] using rev_ind; intros z (Hn & Hd & ->); [easy|].
    rewrite forallb_app in Hd. apply andb_true_iff in Hd. destruct Hd as [Hd Hc].
    cbn [forallb] in Hc. rewrite andb_true_r in Hc. rewrite number_snoc.
    destruct s as [|x s].
    + cbn [number fold_left app]. replace (0 * 16 + xdigit_val c)%Z with (xdigit_val c) by lia.
      constructor. now apply isxdigit_xdigit.
    + rewrite Z.mul_comm. constructor; [now apply IH|now apply isxdigit_xdigit].
Qed.

Lemma xdigit_val_nonneg c : isxdigit c = true -> (0 <= xdigit_val c)%Z.
Proof.
  intros H. apply Z.leb_le. revert c H. by_bytes.
Qed.

Lemma number_nonneg b s : (0 <= b)%Z -> forallb isxdigit s = true -> (0 <= number b s)%Z.
Proof.
  intros Hb. induction s as [|c s IH] using rev_ind; intros H; [now cbn|].
  rewrite forallb_app, andb_true_iff in H. destruct H as [H Hc]. cbn [forallb] in Hc.
  rewrite andb_true_r in Hc. rewrite number_snoc. apply xdigit_val_nonneg in Hc.
  specialize (IH H). nia.
Qed.

Lemma isdigit_isxdigit c : isdigit c = true -> isxdigit c = true.
Proof. unfold isxdigit. now intros ->. Qed.

(** ** Significands *)

Lemma scan_mantissa_app p ip ft fp r :
  p "."%char = false -> forallb p ip = true -> forallb p fp = true -> fraction ft fp ->
  ip ++ fp <> [] -> stops p r -> stops (fun c => Ascii.eqb c ".") r ->
  scan_mantissa p (ip ++ ft ++ r) = Some (ip, fp, r).
Proof.
  intros Hdot Hi Hf Hft Hne Hr Hr'. unfold scan_mantissa. destruct Hft as [|fp].
  - cbn [app]. rewrite span_app by easy. destruct r as [|c r].
    + destruct ip; [easy|]. reflexivity.
    + cbn in Hr'. rewrite Hr'. destruct ip; [easy|]. reflexivity.
  - rewrite span_app by easy. cbn [app]. rewrite Ascii.eqb_refl, span_app by easy.
    destruct ip; [destruct fp; [easy|reflexivity]|reflexivity].
Qed.

Lemma scan_mantissa_inv p s ip fp r :
  scan_mantissa p s = Some (ip, fp, r) ->
  exists ft, s = ip ++ ft ++ r /\ fraction ft fp /\ forallb p (ip ++ fp) = true /\ ip ++ fp <> [].
Proof.
  unfold scan_mantissa. destruct (span p s) as [a b] eqn:E1. apply span_inv in E1.
  destruct E1 as (-> & Ha & Hb).
  assert (Main : forall ft fp' r', b = ft ++ r' -> fraction ft fp' -> forallb p fp' = true ->
    match a ++ fp' with [] => None | _ => Some (a, fp', r') end = Some (ip, fp, r) ->
    exists ft, a ++ b = ip ++ ft ++ r /\ fraction ft fp /\ forallb p (ip ++ fp) = true /\ ip ++ fp <> []).
  { intros ft fp' r' -> Hft Hfp E.
    assert (X : (a, fp', r') = (ip, fp, r) /\ a ++ fp' <> []).
    { destruct (a ++ fp') eqn:E'; [discriminate|]. split; [congruence|discriminate]. }
    destruct X as [X Hne]. inversion X; subst. exists ft. repeat split; try easy.
    now rewrite forallb_app, Ha, Hfp. }
  destruct b as [|c b].
  - apply (Main [] [] []); try easy; constructor.
  - destruct (Ascii.eqb_spec c ".") as [->|Hc].
    + destruct (span p b) as [a' b'] eqn:E2. apply span_inv in E2. destruct E2 as (-> & Ha' & Hb').
      apply (Main ("."%char :: a') a' b'); try easy; constructor.
    + apply (Main [] [] (c :: b)); try easy; constructor.
Qed.

(** ** Exponents *)

Lemma scan_exponent_app l ex x : letter l -> exponent l ex x -> scan_exponent l ex = (x, []).
Proof.
  intros Hl H. destruct H as [|c sg f ds z Hc Hsg Hds]; [reflexivity|].
  apply spells_one in Hc; [|exact Hl]. cbn [scan_exponent]. rewrite Hc, Ascii.eqb_refl.
  apply digits_number in Hds. destruct Hds as (Hne & Hd & ->).
  assert (Hs : span isdigit ds = (ds, [])) by (rewrite <- (app_nil_r ds) at 1; now apply span_app).
  destruct Hsg; cbn [app].
  - destruct ds as [|d ds]; [easy|]. cbn in Hd. apply andb_true_iff in Hd. destruct Hd as [Hd0 Hd].
    assert (N1 : Ascii.eqb d "-" = false).
    { apply negb_true_iff. revert d Hd0 Hs Hne. clear. intros d H _ _. revert d H. by_bytes. }
    assert (N2 : Ascii.eqb d "+" = false).
    { apply negb_true_iff. revert d Hd0 Hs Hne N1. clear. intros d H _ _ _. revert d H. by_bytes. }
    rewrite N1, N2, Hs. reflexivity.
  - change (ascii_of_nat 43) with "+"%char. cbn [Ascii.eqb Bool.eqb]. rewrite Hs.
    destruct ds; [easy|reflexivity].
  - change (ascii_of_nat 45) with "-"%char. cbn [Ascii.eqb Bool.eqb]. rewrite Hs.
    destruct ds; [easy|reflexivity].
Qed.

Lemma scan_exponent_inv l s x : letter l -> scan_exponent l s = (x, []) -> exponent l s x.
Proof.
  intros Hl. destruct s as [|c s]; cbn [scan_exponent].
  { intros H. inversion H; subst. constructor. }
  destruct (Ascii.eqb_spec (lower c) l) as [Hc|_]; [|discriminate].
  apply spells_one in Hc; [|exact Hl].
  assert (Main : forall sg f r neg,
    sign sg f -> s = sg ++ r -> (forall z, (if neg : bool then (- z)%Z else z) = f z) ->
    (match span isdigit r with
     | ([], _) => (0%Z, c :: s)
     | (ds, r2) => ((if neg then (- number 10 ds)%Z else number 10 ds), r2)
     end) = (x, []) -> exponent l (c :: s) x).
  { intros sg f r neg Hsg -> Hf E. destruct (span isdigit r) as [ds r2] eqn:Es.
    apply span_inv in Es. destruct Es as (-> & Hd & _).
    destruct ds as [|d ds]; [discriminate|]. inversion E; subst.
    rewrite app_nil_r, Hf. constructor; try easy. apply digits_number. easy. }
  destruct s as [|a r].
  - intros E. apply (Main [] (fun z => z) [] false); try easy; constructor.
  - destruct (Ascii.eqb_spec a "-") as [->|Ha].
    + intros E. apply (Main ["-"%char] Z.opp r true); try easy; constructor.
    + destruct (Ascii.eqb_spec a "+") as [->|Ha'].
      * intros E. apply (Main ["+"%char] (fun z => z) r false); try easy; constructor.
      * intros E. apply (Main [] (fun z => z) (a :: r) false); try easy; constructor.
Qed.

Lemma exponent_stops l ex x (p : byte -> bool) :
  letter l -> exponent l ex x -> (forall c, lower c = l -> p c = false) -> stops p ex.
Proof.
  intros Hl H Hp. destruct H as [|c sg f ds z Hc]; [exact I|]. cbn. apply Hp. now apply spells_one.
Qed.

(** ** Numbers *)

Lemma low_e_not_digit c : lower c = "e"%char -> isdigit c = false.
Proof.
  intros H. apply negb_true_iff. apply (bytes_imply (fun c => Ascii.eqb (lower c) "e") (fun c => negb (isdigit c)));
    [now vm_compute|]. now rewrite H.
Qed.
Lemma low_e_not_dot c : lower c = "e"%char -> Ascii.eqb c "." = false.
Proof.
  intros H. apply negb_true_iff.
  apply (bytes_imply (fun c => Ascii.eqb (lower c) "e") (fun c => negb (Ascii.eqb c ".")));
    [now vm_compute|]. now rewrite H.
Qed.
Lemma low_p_not_xdigit c : lower c = "p"%char -> isxdigit c = false.
Proof.
  intros H. apply negb_true_iff.
  apply (bytes_imply (fun c => Ascii.eqb (lower c) "p") (fun c => negb (isxdigit c)));
    [now vm_compute|]. now rewrite H.
Qed.
Lemma low_p_not_dot c : lower c = "p"%char -> Ascii.eqb c "." = false.
Proof.
  intros H. apply negb_true_iff.
  apply (bytes_imply (fun c => Ascii.eqb (lower c) "p") (fun c => negb (Ascii.eqb c ".")));
    [now vm_compute|]. now rewrite H.
Qed.

Lemma scan_decimal_app s q : decimal_text s q -> scan_decimal s = Some (SNum q, []).
Proof.
  intros [ip ft fp ex z x Hft Hd Hex]. unfold scan_decimal.
  apply digits_number in Hd. destruct Hd as (Hne & Hd & ->).
  rewrite forallb_app in Hd. pose proof Hd as Hd'. apply andb_true_iff in Hd'. destruct Hd' as [Hi Hf].
  assert (K : scan_mantissa isdigit (ip ++ ft ++ ex) = Some (ip, fp, ex)).
  { apply scan_mantissa_app; try easy;
      (eapply exponent_stops; [exact letter_e|exact Hex|]); [exact low_e_not_digit|exact low_e_not_dot]. }
  unfold bytes, byte in *. rewrite K, (scan_exponent_app _ _ _ letter_e Hex). reflexivity.
Qed.

Lemma scan_decimal_inv s k : scan_decimal s = Some (k, []) -> exists q, k = SNum q /\ decimal_text s q.
Proof.
  unfold scan_decimal. destruct (scan_mantissa isdigit s) as [[[ip fp] r]|] eqn:E; [|discriminate].
  apply scan_mantissa_inv in E. destruct E as (ft & -> & Hft & Hd & Hne).
  destruct (scan_exponent "e"%char r) as [x r'] eqn:Ex. intros H. inversion H; subst.
  apply scan_exponent_inv in Ex; [|exact letter_e]. eexists. split; [reflexivity|].
  constructor; try easy. now apply digits_number.
Qed.

Lemma strip_0x s r : strip_word (lit "0x") s = Some r <->
  exists c, s = "0"%char :: c :: r /\ lower c = "x"%char.
Proof.
  split.
  - destruct s as [|a [|c s]]; cbn [strip_word lit list_ascii_of_string].
    + discriminate.
    + destruct (Ascii.eqb "0" (lower a)); discriminate.
    + destruct (Ascii.eqb_spec "0" (lower a)) as [Ha|]; [|discriminate].
      destruct (Ascii.eqb_spec "x" (lower c)) as [Hc|]; [|discriminate].
      intros H. inversion H; subst. exists c. split; [|easy]. f_equal.
      apply Ascii.eqb_eq.
      apply (bytes_imply (fun a => Ascii.eqb "0" (lower a)) (fun a => Ascii.eqb a "0"));
        [now vm_compute|]. now rewrite <- Ha.
  - intros (c & -> & Hc). cbn [strip_word lit list_ascii_of_string].
    change (Ascii.eqb "0" (lower "0"%char)) with true. cbv iota. now rewrite Hc, Ascii.eqb_refl.
Qed.

Lemma scan_hex_app s q : hex_text s q -> scan_hex s = Some (SNum q, []).
Proof.
  intros [c ip ft fp ex z x Hc Hft Hd Hex]. unfold scan_hex.
  apply spells_one in Hc; [|exact letter_x].
  rewrite (proj2 (strip_0x ("0"%char :: c :: ip ++ ft ++ ex) (ip ++ ft ++ ex)));
    [|now exists c].
  apply xdigits_number in Hd. destruct Hd as (Hne & Hd & ->).
  rewrite forallb_app in Hd. apply andb_true_iff in Hd. destruct Hd as [Hi Hf].
  assert (K : scan_mantissa isxdigit (ip ++ ft ++ ex) = Some (ip, fp, ex)).
  { apply scan_mantissa_app; try easy;
      (eapply exponent_stops; [exact letter_p|exact Hex|]); [exact low_p_not_xdigit|exact low_p_not_dot]. }
  unfold bytes, byte in *. rewrite K, (scan_exponent_app _ _ _ letter_p Hex). reflexivity.
Qed.

Lemma scan_hex_inv s k : scan_hex s = Some (k, []) -> exists q, k = SNum q /\ hex_text s q.
Proof.
  unfold scan_hex. destruct (strip_word (lit "0x") s) as [s'|] eqn:E0; [|discriminate].
  apply strip_0x in E0. destruct E0 as (c & -> & Hc).
  destruct (scan_mantissa isxdigit s') as [[[ip fp] r]|] eqn:E; [|discriminate].
  apply scan_mantissa_inv in E. destruct E as (ft & -> & Hft & Hd & Hne).
  destruct (scan_exponent "p"%char r) as [x r'] eqn:Ex. intros H. inversion H; subst.
  apply scan_exponent_inv in Ex; [|exact letter_p]. eexists. split; [reflexivity|].
  constructor; try easy.
  - apply spells_one; [exact letter_x|exact Hc].
  - now apply xdigits_number.
Qed.

(** ** Which alternative applies *)

(** Characters of decimal numbers. *)
Definition dchar (c : byte) : bool :=
  isdigit c || Ascii.eqb c "." || Ascii.eqb c "e" || Ascii.eqb c "E" || Ascii.eqb c "+" || Ascii.eqb c "-".

Lemma digits_dchar s : forallb isdigit s = true -> forallb dchar s = true.
Proof.
  rewrite !forallb_forall. intros H c Hc. unfold dchar. now rewrite (H c Hc).
Qed.

Lemma exponent_dchar ex x : exponent "e"%char ex x -> forallb dchar ex = true.
Proof.
  intros [|c sg f ds z Hc Hsg Hd]; [reflexivity|].
  apply spells_one in Hc; [|exact letter_e]. cbn [forallb]. rewrite forallb_app.
  apply digits_number in Hd. rewrite (digits_dchar ds) by easy.
  assert (Hc' : dchar c = true).
  { apply (bytes_imply (fun c => Ascii.eqb (lower c) "e") dchar); [now vm_compute|]. now rewrite Hc. }
  rewrite Hc'. destruct Hsg; reflexivity.
Qed.

Lemma decimal_dchar s q : decimal_text s q -> forallb dchar s = true /\
  exists c r, s = c :: r /\ (isdigit c || Ascii.eqb c ".") = true.
Proof.
  intros [ip ft fp ex z x Hft Hd Hex].
  apply digits_number in Hd. destruct Hd as (Hne & Hd & ->).
  rewrite forallb_app in Hd. apply andb_true_iff in Hd. destruct Hd as [Hi Hf].
  split.
  - rewrite !forallb_app, (digits_dchar ip), (exponent_dchar _ _ Hex) by easy.
    destruct Hft; [reflexivity|]. cbn [forallb]. now rewrite digits_dchar.
  - destruct ip as [|c ip].
    + destruct Hft as [|fp]; [easy|]. eexists _, _. split; [reflexivity|reflexivity].
    + cbn in Hi. apply andb_true_iff in Hi. exists c, (ip ++ ft ++ ex). split; [reflexivity|].
      now destruct Hi as [-> _].
Qed.

Lemma strip_word_first l w c s : lower c <> l -> strip_word (l :: w) (c :: s) = None.
Proof. intros H. cbn. destruct (Ascii.eqb_spec l (lower c)); [congruence|reflexivity]. Qed.

Lemma first_not_letter c l : (isdigit c || Ascii.eqb c ".") = true ->
  Ascii.eqb l "i" || Ascii.eqb l "n" = true -> lower c <> l.
Proof.
  intros Hc Hl E. rewrite <- E in Hl.
  assert (K : negb (Ascii.eqb (lower c) "i" || Ascii.eqb (lower c) "n") = true).
  { revert c Hc E Hl. clear. intros c Hc _ _. revert c Hc. by_bytes. }
  rewrite Hl in K. discriminate.
Qed.

Lemma dchar_not_x c : dchar c = true -> lower c <> "x"%char.
Proof.
  intros Hc E. assert (K : negb (Ascii.eqb (lower c) "x") = true).
  { revert c Hc E. clear. intros c Hc _. revert c Hc. by_bytes. }
  rewrite E in K. discriminate.
Qed.

Definition is_n_char (c : byte) : bool :=
  isdigit c || ((97 <=? uchar (lower c))%N && (uchar (lower c) <=? 122)%N) || Ascii.eqb c "_".

Lemma is_n_char_spec c : is_n_char c = true <-> n_char c.
Proof.
  unfold n_char. split.
  - intros H. destruct (isdigit c) eqn:D.
    + left. exists (digit_val c). now apply isdigit_digit.
    + assert (K : Ascii.eqb c "_" || ((97 <=? nat_of_ascii c) && (nat_of_ascii c <=? 122)) ||
                  ((65 <=? nat_of_ascii c) && (nat_of_ascii c <=? 90)) = true).
      { assert (G : is_n_char c && negb (isdigit c) = true) by now rewrite H, D.
        clear H D. revert c G. by_bytes. }
      rewrite !orb_true_iff, !andb_true_iff, !Nat.leb_le, Ascii.eqb_eq in K. tauto.
  - intros H.
    assert (G : forall c, (isdigit c || Ascii.eqb c "_" ||
       ((97 <=? nat_of_ascii c) && (nat_of_ascii c <=? 122)) ||
       ((65 <=? nat_of_ascii c) && (nat_of_ascii c <=? 90))) = true -> is_n_char c = true) by by_bytes.
    apply G. rewrite !orb_true_iff, !andb_true_iff, !Nat.leb_le, Ascii.eqb_eq.
    destruct H as [[d H]|[H|[H|H]]]; [|tauto..]. apply digit_isdigit in H. tauto.
Qed.

Lemma scan_paren_app t : nan_tail t -> scan_paren t = [].
Proof.
  intros [|s Hs]; [reflexivity|]. unfold scan_paren. rewrite Ascii.eqb_refl.
  fold is_n_char.
  assert (Hf : forallb is_n_char s = true).
  { apply forallb_forall. rewrite Forall_forall in Hs. intros c Hc. apply is_n_char_spec, Hs, Hc. }
  change (fun c => isdigit c || ((97 <=? uchar (lower c))%N && (uchar (lower c) <=? 122)%N)
                   || Ascii.eqb c "_") with is_n_char.
  rewrite span_app by (try exact Hf; now vm_compute). reflexivity.
Qed.

Lemma scan_paren_inv t : scan_paren t = [] -> nan_tail t.
Proof.
  destruct t as [|c r]; [constructor|]. unfold scan_paren.
  destruct (Ascii.eqb_spec c "(") as [->|]; [|discriminate].
  change (fun c => isdigit c || ((97 <=? uchar (lower c))%N && (uchar (lower c) <=? 122)%N)
                   || Ascii.eqb c "_") with is_n_char.
  destruct (span is_n_char r) as [a b] eqn:E. apply span_inv in E. destruct E as (-> & Ha & _).
  destruct b as [|d b]; [discriminate|]. destruct (Ascii.eqb_spec d ")") as [->|]; [|discriminate].
  intros ->. constructor. rewrite Forall_forall. rewrite forallb_forall in Ha.
  intros c Hc. apply is_n_char_spec. now apply Ha.
Qed.

(** The scanner's results in the terms of the specification. *)
Definition meaning_of (k : scanned) : meaning :=
  match k with SNum q => Number q | SInf => Infinite | SNaN => NotANumber end.

Lemma spells_first c l s w : spells (c :: s) (l :: w) -> letter l -> lower c = l.
Proof. intros H Hl. inversion H; subst. now apply lower_letter. Qed.

Lemma scan_unsigned_app s M : unsigned_text s M ->
  exists k, scan_unsigned s = Some (k, []) /\ meaning_of k = M.
Proof.
  intros H. destruct H as [s q H|s q H|s H|s H|s t H Ht]; unfold scan_unsigned.
  - destruct (decimal_dchar s q H) as [Hall (c & r & -> & Hc)].
    assert (Ni : lower c <> "i"%char) by now apply first_not_letter.
    assert (Nn : lower c <> "n"%char) by now apply first_not_letter.
    unfold lit. cbn [list_ascii_of_string].
    rewrite !strip_word_first by easy.
    destruct (scan_hex (c :: r)) as [x|] eqn:Ex.
    + exfalso. unfold scan_hex in Ex.
      destruct (strip_word (lit "0x") (c :: r)) as [r'|] eqn:E0; [|discriminate].
      apply strip_0x in E0. destruct E0 as (c' & E & Hc'). inversion E; subst.
      cbn [forallb] in Hall. rewrite !andb_true_iff in Hall. destruct Hall as (_ & Hd & _).
      now apply dchar_not_x in Hd.
    + rewrite (scan_decimal_app _ _ H). now exists (SNum q).
  - pose proof H as H'. destruct H' as [c ip ft fp ex z x Hc Hft Hd Hex].
    rewrite (scan_hex_app _ _ H).
    unfold lit. cbn [list_ascii_of_string].
    rewrite !strip_word_first by (vm_compute; discriminate). now eexists (SNum _).
  - assert (E : strip_word (lit "infinity") s = None).
    { destruct (strip_word (lit "infinity") s) as [r|] eqn:E; [|reflexivity].
      apply strip_word_inv in E; [|exact letters_infinity]. destruct E as (p & -> & Hp).
      apply spells_length in H. apply spells_length in Hp. rewrite app_length in H. cbn in *. lia. }
    rewrite E. rewrite <- (app_nil_r s), strip_word_app by (try exact letters_inf; exact H).
    now exists SInf.
  - rewrite <- (app_nil_r s), strip_word_app by (try exact letters_infinity; exact H). now exists SInf.
  - destruct s as [|c s]; [inversion H|].
    assert (Hc : lower c = "n"%char) by (eapply spells_first; [exact H|unfold letter; cbn; lia]).
    assert (E1 : strip_word (lit "infinity") ((c :: s) ++ t) = None)
      by (unfold lit; cbn [list_ascii_of_string app]; apply strip_word_first; now rewrite Hc).
    assert (E2 : strip_word (lit "inf") ((c :: s) ++ t) = None)
      by (unfold lit; cbn [list_ascii_of_string app]; apply strip_word_first; now rewrite Hc).
    rewrite E1, E2, strip_word_app by (try exact letters_nan; exact H).
    rewrite scan_paren_app by easy. now exists SNaN.
Qed.

Lemma scan_unsigned_inv s k : scan_unsigned s = Some (k, []) -> unsigned_text s (meaning_of k).
Proof.
  unfold scan_unsigned.
  destruct (strip_word (lit "infinity") s) as [r|] eqn:E1.
  { intros H. inversion H; subst. apply strip_word_inv in E1; [|exact letters_infinity].
    destruct E1 as (p & -> & Hp). rewrite app_nil_r. now apply unsigned_infinity. }
  destruct (strip_word (lit "inf") s) as [r|] eqn:E2.
  { intros H. inversion H; subst. apply strip_word_inv in E2; [|exact letters_inf].
    destruct E2 as (p & -> & Hp). rewrite app_nil_r. now apply unsigned_inf. }
  destruct (strip_word (lit "nan") s) as [r|] eqn:E3.
  { intros H. inversion H as [[H1 H2]]; subst. apply strip_word_inv in E3; [|exact letters_nan].
    destruct E3 as (p & -> & Hp). apply unsigned_nan; [exact Hp|]. now apply scan_paren_inv. }
  destruct (scan_hex s) as [[k' r]|] eqn:E4.
  { intros H. inversion H; subst. apply scan_hex_inv in E4. destruct E4 as (q & -> & Hq).
    now apply unsigned_hex. }
  intros H. apply scan_decimal_inv in H. destruct H as (q & -> & Hq). now apply unsigned_decimal.
Qed.

(** ** First characters and NUL *)

Definition starts (c : byte) : bool :=
  negb (isspace c) && negb (Ascii.eqb c "-") && negb (Ascii.eqb c "+").

Lemma unsigned_starts s M : unsigned_text s M -> exists c r, s = c :: r /\ starts c = true.
Proof.
  intros H.
  assert (L : forall c l, lower c = l -> Ascii.eqb l "i" || Ascii.eqb l "n" = true -> starts c = true).
  { intros c l <- Hl. revert c Hl.
    apply (bytes_imply (fun c => Ascii.eqb (lower c) "i" || Ascii.eqb (lower c) "n") starts).
    now vm_compute. }
  destruct H as [s q H|s q H|s H|s H|s t H Ht].
  - destruct (decimal_dchar s q H) as [_ (c & r & -> & Hc)]. exists c, r. split; [reflexivity|].
    revert c Hc H. intros c Hc _. revert c Hc. by_bytes.
  - destruct H. eexists _, _. split; [reflexivity|reflexivity].
  - destruct s as [|c s]; [inversion H|]. exists c, s. split; [reflexivity|].
    eapply L; [eapply spells_first; [exact H|unfold letter; cbn; lia]|reflexivity].
  - destruct s as [|c s]; [inversion H|]. exists c, s. split; [reflexivity|].
    eapply L; [eapply spells_first; [exact H|unfold letter; cbn; lia]|reflexivity].
  - destruct s as [|c s]; [inversion H|]. exists c, (s ++ t). split; [reflexivity|].
    eapply L; [eapply spells_first; [exact H|unfold letter; cbn; lia]|reflexivity].
Qed.

Definition nz (c : byte) : bool := negb (N.eqb (uchar c) 0).

Lemma nz_nonul s : forallb nz s = true -> nonul s.
Proof.
  rewrite forallb_forall. intros H c Hc E. specialize (H c Hc). unfold nz in H. rewrite E in H. discriminate.
Qed.

Lemma forallb_imp (p q : byte -> bool) s :
  (forall c, p c = true -> q c = true) -> forallb p s = true -> forallb q s = true.
Proof. intros H. rewrite !forallb_forall. auto. Qed.

Lemma nz_spells p w : Forall letter w -> spells p w -> forallb nz p = true.
Proof.
  intros Hw H. unfold spells in H. induction H as [|c l p w H Hs IH]; [reflexivity|].
  inversion Hw as [|? ? Hl Hw']; subst. cbn [forallb]. rewrite (IH Hw'), andb_true_r.
  apply lower_letter in H; [|exact Hl]. unfold nz. apply negb_true_iff, N.eqb_neq. intros E.
  rewrite uchar_nat in E. pose proof (lower_nat c) as Hn. rewrite H in Hn. unfold letter in Hl.
  replace (nat_of_ascii c) with 0 in Hn by lia. cbn in Hn. lia.
Qed.

Lemma nz_xdigits s : forallb isxdigit s = true -> forallb nz s = true.
Proof. apply forallb_imp. by_bytes. Qed.
Lemma nz_dchars s : forallb dchar s = true -> forallb nz s = true.
Proof. apply forallb_imp. by_bytes. Qed.

Lemma nz_unsigned s M : unsigned_text s M -> forallb nz s = true.
Proof.
  intros H. destruct H as [s q H|s q H|s H|s H|s t H Ht].
  - apply nz_dchars. now destruct (decimal_dchar s q H).
  - destruct H as [c ip ft fp ex z x Hc Hft Hd Hex].
    apply xdigits_number in Hd. destruct Hd as (_ & Hd & _).
    rewrite forallb_app, andb_true_iff in Hd. destruct Hd as [Hi Hf].
    assert (Hx : forallb nz ("0"%char :: [c] ++ ip ++ ft ++ ex) = true); [|exact Hx].
    cbn [forallb]. change (nz "0"%char) with true. cbn [andb]. rewrite !forallb_app.
    rewrite (nz_spells [c] (lit "x")) by (try exact Hc; now apply letters).
    rewrite (nz_xdigits ip) by easy.
    assert (forallb nz ft = true) as ->.
    { destruct Hft; [reflexivity|]. cbn [forallb]. now rewrite nz_xdigits. }
    destruct Hex as [|c' sg f ds z' Hc' Hsg Hds]; [reflexivity|].
    cbn [andb]. change (c' :: sg ++ ds) with ([c'] ++ sg ++ ds). rewrite !forallb_app.
    rewrite (nz_spells [c'] ["p"%char]) by (try exact Hc'; now apply letters).
    apply digits_number in Hds. destruct Hds as (_ & Hds & _).
    rewrite (nz_dchars ds) by now apply digits_dchar. destruct Hsg; reflexivity.
  - now apply (nz_spells s (lit "inf")); [exact letters_inf|].
  - now apply (nz_spells s (lit "infinity")); [exact letters_infinity|].
  - rewrite forallb_app, (nz_spells s (lit "nan")) by (try exact H; exact letters_nan).
    destruct Ht as [|u Hu]; [reflexivity|]. cbn [andb forallb]. rewrite forallb_app.
    assert (forallb nz u = true) as ->; [|reflexivity].
    apply (forallb_imp is_n_char nz); [by_bytes|]. apply forallb_forall. rewrite Forall_forall in Hu.
    intros c Hc. apply is_n_char_spec, Hu, Hc.
Qed.
