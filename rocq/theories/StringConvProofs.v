(** Correctness of the integer conversions. *)
From Coq Require Import Ascii String NArith ZArith Bool PeanoNat Lia List.
Import ListNotations.
From Verif Require Import Util Base StringConv StringConvSpec.

Local Arguments Z.mul : simpl never.
Local Arguments Z.add : simpl never.
Local Arguments Z.sub : simpl never.
Local Arguments Z.pow : simpl never.

(** * Characters *)

Lemma byte_cases (P : byte -> Prop) :
  (forall n, n < 256 -> P (ascii_of_nat n)) -> forall c, P c.
Proof. intros H c. rewrite <- (ascii_nat_embedding c). apply H, nat_ascii_bounded. Qed.

Lemma uchar_nat c : uchar c = N.of_nat (nat_of_ascii c).
Proof. unfold uchar, nat_of_ascii. now rewrite N2Nat.id. Qed.

Lemma isspace_blank c : isspace c = true <-> blank c.
Proof.
  unfold isspace, blank. rewrite uchar_nat. set (n := nat_of_ascii c). cbn.
  rewrite orb_true_iff, andb_true_iff, N.eqb_eq, !N.leb_le. split.
  - intros [H|[H1 H2]]; [left; lia|].
    assert (n = 9 \/ n = 10 \/ n = 11 \/ n = 12 \/ n = 13) by lia. intuition.
  - intuition lia.
Qed.

Lemma digit_isdigit c d : digit c d -> isdigit c = true /\ d = digit_val c.
Proof.
  intros [k Hk]. unfold isdigit, digit_val. rewrite uchar_nat, nat_ascii_embedding by lia.
  rewrite andb_true_iff, !N.leb_le. lia.
Qed.

Lemma isdigit_digit c : isdigit c = true <-> digit c (digit_val c).
Proof.
  unfold isdigit, digit_val. rewrite uchar_nat. split.
  - rewrite andb_true_iff, !N.leb_le. intros [H1 H2].
    set (n := nat_of_ascii c) in *.
    assert (Hn : n = 48 + (n - 48)) by lia.
    replace (Z.of_N (N.of_nat n) - 48)%Z with (Z.of_nat (n - 48)) by lia.
    rewrite <- (ascii_nat_embedding c). fold n. rewrite Hn at 1.
    constructor. lia.
  - intros H. apply digit_isdigit in H. destruct H as [H _]. unfold isdigit in H.
    now rewrite uchar_nat in H.
Qed.

Lemma digit_val_range c : isdigit c = true -> (0 <= digit_val c < 10)%Z.
Proof. unfold isdigit, digit_val. rewrite andb_true_iff, !N.leb_le. lia. Qed.

(** * The subject sequence *)

Definition dval (s : bytes) (acc : Z) : Z :=
  fold_left (fun a c => a * 10 + digit_val c)%Z s acc.

Lemma skip_while_app p w r n :
  forallb p w = true -> (match r with c :: _ => p c = false | [] => True end) ->
  skip_while p (w ++ r) n = (r, n + length w).
Proof.
  revert n. induction w as [|c w IH]; intros n Hw Hr; cbn in *.
  - rewrite Nat.add_0_r. destruct r; cbn; [easy|]. now rewrite Hr.
  - apply andb_true_iff in Hw. destruct Hw as [-> Hw]. rewrite IH by easy. f_equal. lia.
Qed.

Lemma read_digits_app w r n acc :
  forallb isdigit w = true -> (match r with c :: _ => isdigit c = false | [] => True end) ->
  read_digits (w ++ r) n acc = (dval w acc, n + length w).
Proof.
  revert n acc. induction w as [|c w IH]; intros n acc Hw Hr; cbn in *.
  - rewrite Nat.add_0_r. destruct r; cbn; [easy|]. now rewrite Hr.
  - apply andb_true_iff in Hw. destruct Hw as [-> Hw]. rewrite IH by easy. f_equal. lia.
Qed.

Lemma split_while (p : byte -> bool) s :
  exists w r, s = w ++ r /\ forallb p w = true /\
              (match r with c :: _ => p c = false | [] => True end).
Proof.
  induction s as [|c s (w & r & -> & Hw & Hr)].
  - now exists [], [].
  - destruct (p c) eqn:E.
    + exists (c :: w), r. cbn. now rewrite E.
    + exists [], (c :: w ++ r). now cbn.
Qed.

Lemma dval_app a b acc : dval (a ++ b) acc = dval b (dval a acc).
Proof. apply fold_left_app. Qed.

Lemma digits_dval s z :
  digits s z <-> s <> [] /\ forallb isdigit s = true /\ z = dval s 0%Z.
Proof.
  split.
  - induction 1 as [c d H|s c z d H (Hn & Hd & ->) Hc].
    + apply digit_isdigit in H. destruct H as [H ->]. cbn. rewrite H.
      repeat split; try easy; lia.
    + apply digit_isdigit in Hc. destruct Hc as [Hc ->].
      rewrite forallb_app, dval_app, Hd. cbn. rewrite Hc.
      repeat split; [now destruct s|lia].
  - revert z. induction s as [|c s IH] using rev_ind; intros z (Hn & Hd & ->); [easy|].
    rewrite forallb_app in Hd. apply andb_true_iff in Hd. destruct Hd as [Hd Hc].
    cbn in Hc. rewrite andb_true_r in Hc. rewrite dval_app. cbn.
    destruct s as [|x s].
    + cbn. replace (digit_val c) with (digit_val c) by easy. constructor. now apply isdigit_digit.
    + rewrite Z.mul_comm. constructor; [now apply IH|now apply isdigit_digit].
Qed.

Lemma dval_nonneg s acc : forallb isdigit s = true -> (0 <= acc)%Z -> (0 <= dval s acc)%Z.
Proof.
  revert acc. induction s as [|c s IH]; intros acc Hd Ha; cbn in *; [easy|].
  apply andb_true_iff in Hd. destruct Hd as [Hc Hd].
  apply IH; [easy|]. apply digit_val_range in Hc. lia.
Qed.

Lemma digits_nonneg s z : digits s z -> (0 <= z)%Z.
Proof. rewrite digits_dval. intros (_ & H & ->). now apply dval_nonneg. Qed.

Lemma blanks_forallb s : blanks s <-> forallb isspace s = true.
Proof.
  unfold blanks. rewrite forallb_forall. split; intros H c Hc; specialize (H c Hc);
    now apply isspace_blank.
Qed.

Definition sign_text (sg : bytes) (neg : bool) : Prop :=
  (neg = true /\ sg = [ascii_of_nat 45]) \/
  (neg = false /\ (sg = [] \/ sg = [ascii_of_nat 43])).

Lemma uchar_of_nat n : n < 256 -> uchar (ascii_of_nat n) = N.of_nat n.
Proof. intros H. now rewrite uchar_nat, nat_ascii_embedding. Qed.

Lemma uchar_inj_nat c n : n < 256 -> uchar c = N.of_nat n -> c = ascii_of_nat n.
Proof.
  intros Hn. rewrite uchar_nat. intros H.
  rewrite <- (ascii_nat_embedding c). f_equal. lia.
Qed.

Lemma digit_not_space c : isdigit c = true -> isspace c = false.
Proof.
  unfold isdigit, isspace. rewrite andb_true_iff, !N.leb_le. intros [H1 H2].
  apply orb_false_iff. rewrite N.eqb_neq, andb_false_iff, !N.leb_gt. lia.
Qed.

(** Reading a well-formed text. *)
Lemma subject_wf ws sg neg ds r :
  forallb isspace ws = true -> sign_text sg neg ->
  ds <> [] -> forallb isdigit ds = true ->
  (match r with c :: _ => isdigit c = false | [] => True end) ->
  subject (ws ++ sg ++ ds ++ r) = (dval ds 0%Z, neg, length (ws ++ sg ++ ds)).
Proof.
  intros Hws Hsg Hne Hds Hr. unfold subject.
  destruct ds as [|d ds]; [easy|]. clear Hne.
  pose proof Hds as Hds0. cbn in Hds0. apply andb_true_iff in Hds0. destruct Hds0 as [Hd _].
  pose proof (digit_not_space d Hd) as Hdsp.
  assert (Hd' : N.eqb (uchar d) 45 = false /\ N.eqb (uchar d) 43 = false).
  { unfold isdigit in Hd. rewrite andb_true_iff, !N.leb_le in Hd. rewrite !N.eqb_neq. lia. }
  rewrite skip_while_app; [|easy|].
  2:{ destruct Hsg as [[_ ->]|[_ [->| ->]]]; cbn; auto. }
  rewrite Nat.add_0_l.
  destruct Hsg as [[-> ->]|[-> [->| ->]]]; cbn [app].
  - rewrite uchar_of_nat by lia. change (N.eqb (N.of_nat 45) 45) with true. cbn match.
    change (d :: ds ++ r) with ((d :: ds) ++ r).
    rewrite read_digits_app by easy.
    rewrite !app_length. cbn [length].
    destruct (S (length ws) + S (length ds) =? S (length ws)) eqn:E;
      [apply Nat.eqb_eq in E; lia|]. f_equal. lia.
  - destruct Hd' as [-> ->]. cbn match.
    change (d :: ds ++ r) with ((d :: ds) ++ r).
    rewrite read_digits_app by easy.
    rewrite !app_length. cbn [length].
    destruct (length ws + S (length ds) =? length ws) eqn:E;
      [apply Nat.eqb_eq in E; lia|]. f_equal.
  - rewrite uchar_of_nat by lia. change (N.eqb (N.of_nat 43) 45) with false.
    change (N.eqb (N.of_nat 43) 43) with true. cbn match.
    change (d :: ds ++ r) with ((d :: ds) ++ r).
    rewrite read_digits_app by easy.
    rewrite !app_length. cbn [length].
    destruct (S (length ws) + S (length ds) =? S (length ws)) eqn:E;
      [apply Nat.eqb_eq in E; lia|]. f_equal. lia.
Qed.

Lemma subject_inv s m neg n :
  subject s = (m, neg, n) ->
  (n = 0 /\ m = 0%Z /\ neg = false) \/
  exists ws sg ds r, s = ws ++ sg ++ ds ++ r /\ forallb isspace ws = true /\
    sign_text sg neg /\ digits ds m /\ n = length (ws ++ sg ++ ds).
Proof.
  unfold subject.
  destruct (split_while isspace s) as (ws & s1 & -> & Hws & Hs1).
  rewrite skip_while_app by easy. rewrite Nat.add_0_l.
  assert (K : forall sg ng s2, s1 = sg ++ s2 -> sign_text sg ng ->
     (let '(m0, n3) := read_digits s2 (length ws + length sg) 0%Z in
      if n3 =? length ws + length sg then (0%Z, false, 0) else (m0, ng, n3)) = (m, neg, n) ->
     (n = 0 /\ m = 0%Z /\ neg = false) \/
     exists ws' sg ds r, ws ++ s1 = ws' ++ sg ++ ds ++ r /\ forallb isspace ws' = true /\
       sign_text sg neg /\ digits ds m /\ n = length (ws' ++ sg ++ ds)).
  { intros sg ng s2 -> Hsg.
    destruct (split_while isdigit s2) as (ds & r & -> & Hds & Hr).
    rewrite read_digits_app by easy.
    destruct (_ =? _) eqn:E; intros [= <- <- <-].
    - now left.
    - right. exists ws, sg, ds, r. repeat split; try easy.
      + apply digits_dval. repeat split; try easy. intros ->.
        apply Nat.eqb_neq in E. cbn in E. lia.
      + rewrite !app_length. lia. }
  destruct s1 as [|c s2].
  - intros H. apply (K [] false []); [easy|right; auto|]. cbn in *. now rewrite Nat.add_0_r.
  - destruct (N.eqb_spec (uchar c) 45) as [E|E].
    + apply (uchar_inj_nat _ 45) in E; [|lia]. subst c.
      intros H. apply (K [ascii_of_nat 45] true s2); [easy|left; auto|].
      cbn [length]. now rewrite Nat.add_1_r.
    + destruct (N.eqb_spec (uchar c) 43) as [E'|E'].
      * apply (uchar_inj_nat _ 43) in E'; [|lia]. subst c.
        intros H. apply (K [ascii_of_nat 43] false s2); [easy|right; auto|].
        cbn [length]. now rewrite Nat.add_1_r.
      * intros H. apply (K [] false (c :: s2)); [easy|right; auto|].
        cbn [length]. now rewrite Nat.add_0_r.
Qed.

(** * C strings *)

Definition nonul (s : bytes) : Prop := forall c, In c s -> uchar c <> 0%N.

Lemma c_str_nonul s : nonul s -> c_str s = s.
Proof.
  induction s as [|c s IH]; intros H; cbn; [easy|].
  destruct (N.eqb_spec (uchar c) 0) as [E|E].
  - now specialize (H c (or_introl eq_refl)).
  - f_equal. apply IH. intros x Hx. apply H. now right.
Qed.

Lemma c_str_length s : length (c_str s) <= length s.
Proof. induction s as [|c s IH]; cbn; [lia|]. destruct (N.eqb (uchar c) 0); cbn; lia. Qed.

Lemma c_str_full s : length (c_str s) = length s -> c_str s = s.
Proof.
  induction s as [|c s IH]; cbn; [easy|].
  destruct (N.eqb (uchar c) 0); cbn; [easy|]. intros H. f_equal. apply IH. lia.
Qed.

Lemma isdigit_nonul c : isdigit c = true -> uchar c <> 0%N.
Proof. unfold isdigit. rewrite andb_true_iff, !N.leb_le. lia. Qed.

Lemma isspace_nonul c : isspace c = true -> uchar c <> 0%N.
Proof. unfold isspace. rewrite orb_true_iff, andb_true_iff, N.eqb_eq, !N.leb_le. lia. Qed.

Lemma text_nonul ws sg neg ds :
  forallb isspace ws = true -> sign_text sg neg -> forallb isdigit ds = true ->
  nonul (ws ++ sg ++ ds).
Proof.
  rewrite !forallb_forall. intros Hw Hs Hd c Hc.
  rewrite !in_app_iff in Hc. destruct Hc as [Hc|[Hc|Hc]].
  - now apply isspace_nonul, Hw.
  - destruct Hs as [[_ ->]|[_ [->| ->]]]; cbn in Hc;
      try destruct Hc as [<-|[]]; try easy; rewrite uchar_of_nat by lia; easy.
  - now apply isdigit_nonul, Hd.
Qed.

(** A text denotes a number exactly when the whole text is the subject sequence. *)
Lemma denotes_subject s z :
  denotes s z <->
  exists m neg, subject (c_str s) = (m, neg, length s) /\ s <> [] /\ (0 <= m)%Z /\
    z = (if neg then - m else m)%Z.
Proof.
  split.
  - intros [ws sg f ds z0 Hw Hs Hd].
    pose proof (digits_nonneg _ _ Hd) as Hz.
    apply digits_dval in Hd. destruct Hd as (Hn & Hd & ->).
    apply blanks_forallb in Hw.
    assert (exists neg, sign_text sg neg /\ forall x, f x = if neg then (- x)%Z else x) as (neg & Hsg & Hf).
    { destruct Hs; [exists false|exists false|exists true]; split; try easy; unfold sign_text; auto. }
    exists (dval ds 0%Z), neg.
    rewrite c_str_nonul by (eapply text_nonul; eauto).
    repeat split; try easy.
    + rewrite <- (app_nil_r ds) at 1. now apply subject_wf.
    + destruct ds; [easy|]. destruct ws; destruct sg; easy.
  - intros (m & neg & Hsub & Hne & Hm & ->).
    destruct (subject_inv _ _ _ _ Hsub) as [(H & _)|(ws & sg & ds & r & Hs & Hw & Hsg & Hd & Hlen)].
    + now destruct s.
    + assert (Hcs : c_str s = s).
      { apply c_str_full. pose proof (c_str_length s). rewrite Hs in *. rewrite !app_length in *. lia. }
      rewrite Hcs in Hs.
      assert (r = []) as ->.
      { rewrite Hs in Hlen. rewrite !app_length in Hlen. destruct r; [easy|cbn in Hlen; lia]. }
      rewrite app_nil_r in Hs. subst s.
      destruct Hsg as [[-> ->]|[-> [->| ->]]].
      * apply (denotes_intro ws _ Z.opp ds m); try easy; [now apply blanks_forallb|constructor].
      * apply (denotes_intro ws _ (fun z => z) ds m); try easy; [now apply blanks_forallb|constructor].
      * apply (denotes_intro ws _ (fun z => z) ds m); try easy; [now apply blanks_forallb|constructor].
Qed.

Lemma denotes_det s z z' : denotes s z -> denotes s z' -> z = z'.
Proof.
  rewrite !denotes_subject. intros (m & n & H & _ & _ & ->) (m' & n' & H' & _ & _ & ->).
  rewrite H in H'. now injection H' as [= -> ->].
Qed.

(** * Signed conversions *)

Lemma signed_spec bits s z :
  signedIntegerFromString bits s = Some z <->
  denotes s z /\ (smin bits <= z <= smax bits)%Z.
Proof.
  rewrite denotes_subject. unfold signedIntegerFromString, strto_signed.
  destruct (subject (c_str s)) as [[m neg] n] eqn:E.
  assert (Hm : (0 <= m)%Z).
  { destruct (subject_inv _ _ _ _ E) as [(_ & -> & _)|(? & ? & ds & ? & _ & _ & _ & Hd & _)];
      [easy|now apply digits_nonneg in Hd]. }
  set (v := if neg then (- m)%Z else m).
  split.
  - destruct s as [|c s']; [easy|]. set (s := c :: s') in *.
    destruct (Z.ltb_spec v (smin bits)); [easy|].
    destruct (Z.ltb_spec (smax bits) v); [easy|].
    destruct (Nat.eqb_spec n (length s)) as [->|]; [|easy].
    intros [= <-]. split; [|lia]. exists m, neg. now repeat split.
  - intros [(m' & neg' & H & Hne & _ & Hz) Hr].
    injection H as <- <- ->. fold v in Hz. subst z.
    destruct s as [|c s']; [easy|].
    destruct (Z.ltb_spec v (smin bits)); [lia|].
    destruct (Z.ltb_spec (smax bits) v); [lia|].
    now rewrite Nat.eqb_refl.
Qed.

(** * Unsigned conversions *)

(** What the unsigned functions accept: the minus sign may follow white space, and
    the value is then reduced modulo 2^bits. *)
Definition wraps (bits : Z) (s : bytes) (z : Z) : Prop :=
  (exists c r, s = c :: r /\ c <> ascii_of_nat 45) /\
  exists z0, denotes s z0 /\ (Z.abs z0 < 2 ^ bits)%Z /\ z = (z0 mod 2 ^ bits)%Z.

Lemma unsigned_spec bits s z :
  (0 <= bits)%Z ->
  unsignedIntegerFromString bits s = Some z <-> wraps bits s z.
Proof.
  intros Hb. unfold wraps, unsignedIntegerFromString, strto_unsigned.
  destruct (subject (c_str s)) as [[m neg] n] eqn:E.
  assert (Hm : (0 <= m)%Z).
  { destruct (subject_inv _ _ _ _ E) as [(_ & -> & _)|(? & ? & ds & ? & _ & _ & _ & Hd & _)];
      [easy|now apply digits_nonneg in Hd]. }
  assert (Hp : (0 < 2 ^ bits)%Z) by (apply Z.pow_pos_nonneg; lia).
  unfold umax. split.
  - destruct s as [|c s']; [easy|].
    destruct (N.eqb_spec (uchar c) 45) as [|Hc]; [easy|].
    destruct (Z.ltb_spec (2 ^ bits - 1) m); [easy|].
    destruct (Nat.eqb_spec n (length (c :: s'))) as [->|]; [|easy].
    intros [= <-]. split.
    + exists c, s'. split; [easy|]. intros ->. now rewrite uchar_of_nat in Hc by lia.
    + exists (if neg then - m else m)%Z. split; [|split].
      * apply denotes_subject. exists m, neg. now repeat split.
      * destruct neg; lia.
      * destruct neg; [easy|]. symmetry. apply Z.mod_small. lia.
  - intros [(c & r & -> & Hc) (z0 & Hd & Ha & ->)].
    apply denotes_subject in Hd. destruct Hd as (m' & neg' & H & _ & _ & ->).
    rewrite E in H. injection H as <- <- ->.
    destruct (N.eqb_spec (uchar c) 45) as [Hc'|_].
    { apply (uchar_inj_nat _ 45) in Hc'; [easy|lia]. }
    destruct (Z.ltb_spec (2 ^ bits - 1) m); [destruct neg; lia|].
    rewrite Nat.eqb_refl. f_equal. destruct neg; [easy|]. symmetry. apply Z.mod_small. lia.
Qed.

(** * All the types *)

Lemma from_signed p t s z :
  is_unsigned t = false ->
  fromString p t s = Some z <-> denotes s z /\ in_range p t z.
Proof.
  intros Hu.
  assert (K : forall mn mx, (smin (long_bits p) <= mn)%Z -> (mx <= smax (long_bits p))%Z ->
    signedAliasFromString p s mn mx = Some z <-> denotes s z /\ (mn <= z <= mx)%Z).
  { intros mn mx H1 H2. unfold signedAliasFromString.
    destruct (signedIntegerFromString (long_bits p) s) as [r|] eqn:E.
    - apply signed_spec in E. destruct E as [Hd Hr].
      destruct (Z.ltb_spec r mn); cbn [orb].
      { split; [easy|]. intros [Hd' Hr']. rewrite (denotes_det _ _ _ Hd Hd') in *. lia. }
      destruct (Z.ltb_spec mx r); cbn [orb].
      { split; [easy|]. intros [Hd' Hr']. rewrite (denotes_det _ _ _ Hd Hd') in *. lia. }
      split.
      + intros [= <-]. split; [easy|lia].
      + intros [Hd' Hr']. now rewrite (denotes_det _ _ _ Hd Hd').
    - split; [easy|]. intros [Hd Hr].
      assert (signedIntegerFromString (long_bits p) s = Some z) as E'.
      { apply signed_spec. split; [easy|lia]. }
      congruence. }
  destruct p as [cs lw].
  destruct t; try discriminate Hu; cbn [fromString]; unfold in_range, type_min, type_max; cbn [char_signed long_is].
  - rewrite K; unfold CHAR_MIN, CHAR_MAX, long_bits; cbn [char_signed long_is];
      [easy|destruct cs, lw; vm_compute; congruence|destruct cs, lw; vm_compute; congruence|..];
      destruct cs; reflexivity.
  - rewrite K; [reflexivity|destruct lw; vm_compute; congruence..].
  - rewrite K; [reflexivity|destruct lw; vm_compute; congruence..].
  - rewrite K; [reflexivity|destruct lw; vm_compute; congruence..].
  - rewrite signed_spec. destruct lw; reflexivity.
  - rewrite signed_spec. reflexivity.
Qed.

Lemma from_unsigned p t s z :
  is_unsigned t = true ->
  fromString p t s = Some z <-> wraps (route_bits p t) s z /\ in_range p t z.
Proof.
  intros Hu.
  assert (Hb : (0 <= long_bits p)%Z) by (unfold long_bits; destruct (long_is p); lia).
  assert (W : forall bits, (0 <= bits)%Z -> wraps bits s z -> (0 <= z <= umax bits)%Z).
  { intros bits H [_ (z0 & _ & _ & ->)]. unfold umax.
    pose proof (Z.mod_pos_bound z0 (2 ^ bits)). pose proof (Z.pow_pos_nonneg 2 bits). lia. }
  assert (K : forall mx,
    unsignedAliasFromString p s mx = Some z <-> wraps (long_bits p) s z /\ (0 <= z <= mx)%Z).
  { intros mx. unfold unsignedAliasFromString.
    destruct (unsignedIntegerFromString (long_bits p) s) as [r|] eqn:E.
    - apply unsigned_spec in E; [|easy].
      assert (D : wraps (long_bits p) s z -> z = r).
      { destruct E as [_ (z0 & Hd & _ & ->)]. intros [_ (z1 & Hd' & _ & ->)].
        now rewrite (denotes_det _ _ _ Hd Hd'). }
      destruct (Z.ltb_spec mx r).
      { split; [easy|]. intros [Hw Hr']. apply D in Hw. lia. }
      split.
      + intros [= <-]. split; [easy|]. apply W in E; [lia|easy].
      + intros [Hw Hr']. now rewrite (D Hw).
    - split; [easy|]. intros [Hw Hr].
      apply unsigned_spec in Hw; [congruence|easy]. }
  destruct p as [cs lw].
  destruct t; try discriminate Hu; cbn [fromString route_bits]; unfold in_range, type_min, type_max; cbn [char_signed long_is].
  - rewrite K. reflexivity.
  - rewrite K. reflexivity.
  - rewrite K. reflexivity.
  - rewrite unsigned_spec by easy. split; [|now intros [H _]].
    intros H. split; [easy|]. apply W in H; [|easy]. destruct lw; exact H.
  - rewrite unsigned_spec by easy. split; [|now intros [H _]].
    intros H. split; [easy|]. apply W in H; [|easy]. exact H.
Qed.

(** * Printing *)

Lemma digit_char_digit d : (0 <= d < 10)%Z -> digit (digit_char d) d.
Proof.
  intros H. unfold digit_char.
  replace (ascii_of_N (Z.to_N (d + 48))) with (ascii_of_nat (48 + Z.to_nat d)).
  - rewrite <- (Z2Nat.id d) at 2 by lia. constructor. lia.
  - unfold ascii_of_nat. f_equal. lia.
Qed.

(** Canonical decimal text: no superfluous leading zero. *)
Lemma dec_loop_spec f n acc :
  (0 <= n)%Z -> (n < 10 ^ Z.of_nat f)%Z -> f <> 0 ->
  exists ds, dec_loop f n acc = ds ++ acc /\ digits ds n /\
    ((n < 10)%Z -> length ds = 1) /\ (n <> 0%Z -> exists d, (0 < d < 10)%Z /\ hd_error ds = Some (digit_char d)).
Proof.
  revert n acc. induction f as [|f IH]; intros n acc Hn Hlt Hf; [easy|].
  cbn [dec_loop]. destruct (Z.ltb_spec n 10) as [H|H].
  - exists [digit_char (n mod 10)]. rewrite Z.mod_small by lia. repeat split; try easy.
    + constructor. apply digit_char_digit. lia.
    + intros Hnz. exists n. split; [lia|easy].
  - assert (Hm : (0 <= n mod 10 < 10)%Z) by (apply Z.mod_pos_bound; lia).
    assert (Hq : (1 <= n / 10)%Z) by (apply Z.div_le_lower_bound; lia).
    assert (Hql : (n / 10 < 10 ^ Z.of_nat f)%Z).
    { apply Z.div_lt_upper_bound; [lia|]. rewrite Nat2Z.inj_succ, Z.pow_succ_r in Hlt by lia. lia. }
    destruct (IH (n / 10)%Z (digit_char (n mod 10) :: acc)) as (ds & -> & Hd & _ & Hh).
    { lia. } { easy. }
    { intros ->. cbn in Hql. lia. }
    exists (ds ++ [digit_char (n mod 10)]). rewrite <- app_assoc. repeat split; try easy.
    + rewrite (Z.div_mod n 10) at 2 by lia. constructor; [easy|]. now apply digit_char_digit.
    + lia.
    + intros _. destruct Hh as (d & Hd1 & Hd2); [lia|]. exists d. split; [easy|].
      destruct ds; [easy|exact Hd2].
Qed.

Lemma dec_fuel n : (0 <= n)%Z -> (n < 10 ^ Z.of_nat (S (Z.to_nat (Z.log2 n))))%Z.
Proof.
  intros H. rewrite Nat2Z.inj_succ, Z2Nat.id by apply Z.log2_nonneg.
  destruct (Z.eq_dec n 0) as [->|Hn]; [reflexivity|].
  apply Z.lt_le_trans with (2 ^ Z.succ (Z.log2 n))%Z; [apply Z.log2_spec; lia|].
  apply Z.pow_le_mono_l. lia.
Qed.

Lemma dec_spec n :
  (0 <= n)%Z -> digits (dec n) n /\ ((n < 10)%Z -> length (dec n) = 1) /\
    (n <> 0%Z -> exists d, (0 < d < 10)%Z /\ hd_error (dec n) = Some (digit_char d)).
Proof.
  intros H. destruct (dec_loop_spec (S (Z.to_nat (Z.log2 n))) n []) as (ds & E & Hd & Hl & Hh);
    [easy|now apply dec_fuel|easy|].
  unfold dec. rewrite E, app_nil_r. auto.
Qed.

Lemma printf_d_denotes v : denotes (printf_d v) v.
Proof.
  unfold printf_d. destruct (Z.ltb_spec v 0).
  - rewrite <- (Z.opp_involutive v) at 2.
    change (ascii_of_N 45) with (ascii_of_nat 45).
    apply (denotes_intro [] [ascii_of_nat 45] Z.opp); [easy|constructor|apply dec_spec; lia].
  - apply (denotes_intro [] [] (fun z => z)); [easy|constructor|apply dec_spec; lia].
Qed.

Lemma printf_u_denotes v : (0 <= v)%Z -> denotes (printf_u v) v.
Proof.
  intros H. apply (denotes_intro [] [] (fun z => z)); [easy|constructor|now apply dec_spec].
Qed.

Lemma digits_head s z : digits s z -> exists c r, s = c :: r /\ isdigit c = true.
Proof.
  rewrite digits_dval. intros (Hn & Hd & _). destruct s as [|c r]; [easy|].
  cbn in Hd. apply andb_true_iff in Hd. exists c, r. now destruct Hd.
Qed.

Lemma in_range_unsigned_nonneg p t v : is_unsigned t = true -> in_range p t v -> (0 <= v)%Z.
Proof. unfold in_range. destruct t; try discriminate; cbn; lia. Qed.

Lemma toString_denotes p t v : in_range p t v -> denotes (toString t v) v.
Proof.
  intros H. destruct t; cbn [toString]; try apply printf_d_denotes;
    apply printf_u_denotes; now apply (in_range_unsigned_nonneg p) in H.
Qed.

Lemma toString_unsigned p t v :
  is_unsigned t = true -> in_range p t v -> toString t v = dec v.
Proof.
  intros Hu H. pose proof (in_range_unsigned_nonneg _ _ _ Hu H) as Hv.
  destruct t; try discriminate Hu; cbn [toString]; try easy; unfold printf_d;
    destruct (Z.ltb_spec v 0); easy || lia.
Qed.

Lemma in_range_route p t v :
  is_unsigned t = true -> in_range p t v -> (v < 2 ^ route_bits p t)%Z.
Proof.
  intros Hu [_ H]. eapply Z.le_lt_trans; [exact H|].
  destruct p as [cs lw]; destruct t; try discriminate Hu; unfold route_bits, long_bits; cbn;
    destruct lw; reflexivity.
Qed.

Lemma round_trip p t v : in_range p t v -> fromString p t (toString t v) = Some v.
Proof.
  intros H. destruct (is_unsigned t) eqn:Hu.
  - apply from_unsigned; [easy|]. split; [|easy].
    pose proof (toString_denotes _ _ _ H) as Hd.
    pose proof (in_range_unsigned_nonneg _ _ _ Hu H) as Hv.
    pose proof (in_range_route _ _ _ Hu H) as Hr.
    rewrite (toString_unsigned _ _ _ Hu H) in *.
    destruct (digits_head (dec v) v) as (c & r & E & Hc); [now apply dec_spec|].
    split.
    + exists c, r. split; [easy|]. intros ->. vm_compute in Hc. easy.
    + exists v. split; [easy|]. split; [lia|]. symmetry. now apply Z.mod_small.
  - apply from_signed; [easy|]. split; [now apply (toString_denotes p)|easy].
Qed.

Lemma dec_canonical z : (0 <= z)%Z -> canonical z (dec z).
Proof.
  intros H. destruct (Z.eq_dec z 0) as [->|Hz].
  - change (dec 0) with [ascii_of_nat 48]. constructor.
  - destruct (dec_spec z H) as (Hd & _ & Hh). destruct (Hh Hz) as (d & Hd1 & Hd2).
    destruct (dec z) as [|c ds]; [easy|]. injection Hd2 as ->.
    constructor; [lia|easy|]. intros E.
    destruct (digit_isdigit _ _ (digit_char_digit d ltac:(lia))) as [_ E2].
    rewrite E in E2. vm_compute in E2. lia.
Qed.

Lemma toString_canonical p t v : in_range p t v -> canonical v (toString t v).
Proof.
  intros H. destruct (is_unsigned t) eqn:Hu.
  - rewrite (toString_unsigned p) by easy. apply dec_canonical.
    now apply (in_range_unsigned_nonneg p t).
  - assert (toString t v = printf_d v) as -> by (destruct t; easy).
    unfold printf_d. destruct (Z.ltb_spec v 0).
    + rewrite <- (Z.opp_involutive v) at 1. constructor; [lia|]. apply dec_canonical. lia.
    + now apply dec_canonical.
Qed.

Lemma canonical_denotes z s : canonical z s -> denotes s z.
Proof.
  assert (P : forall z s, canonical z s -> (0 <= z)%Z -> digits s z).
  { intros z' s' H. inversion H as [|c ds z0 H0 Hd Hc|z0 s0 H0 H1]; subst; intros Hp.
    - apply digits_one. apply (digit_intro 0). lia.
    - easy.
    - lia. }
  intros H. destruct (Z.leb_spec 0 z) as [Hz|Hz].
  - apply (denotes_intro [] [] (fun z => z)); [easy|constructor|auto].
  - inversion H as [|c ds z0 H0 Hd Hc|z0 s0 H0 H1]; subst; [lia|lia|].
    apply (denotes_intro [] [ascii_of_nat 45] Z.opp); [easy|constructor|].
    apply P; [easy|lia].
Qed.

(** Printing is the only canonical text. *)
Lemma canonical_parses p t s z :
  canonical z s -> in_range p t z -> fromString p t s = Some z.
Proof.
  intros Hc Hr. pose proof (canonical_denotes _ _ Hc) as Hd.
  destruct (is_unsigned t) eqn:Hu.
  - apply from_unsigned; [easy|]. split; [|easy].
    pose proof (in_range_unsigned_nonneg _ _ _ Hu Hr) as Hv.
    pose proof (in_range_route _ _ _ Hu Hr) as Hl. split.
    + inversion Hc as [|c ds z0 H0 Hds Hc0|z0 s0 H0 H1]; subst.
      * exists (ascii_of_nat 48), []. easy.
      * exists c, ds. split; [easy|]. intros ->.
        destruct (digits_head _ _ Hds) as (c & r & [= <- <-] & E). vm_compute in E. easy.
      * lia.
    + exists z. split; [easy|]. split; [lia|]. symmetry. now apply Z.mod_small.
  - now apply from_signed.
Qed.

(** * Negative texts and unsigned types *)

Lemma denotes_neg s z :
  denotes s z -> (z < 0)%Z ->
  (exists r, s = ascii_of_nat 45 :: r) \/ blank_minus s.
Proof.
  intros [ws sg f ds z0 Hw Hs Hd] Hz. apply digits_nonneg in Hd.
  destruct Hs; try lia.
  destruct ws as [|w ws].
  - left. now exists ds.
  - right. exists (w :: ws), ds. split; [easy|]. split; [easy|]. exact Hw.
Qed.

Lemma unsigned_exact p t s z :
  is_unsigned t = true -> ~ blank_minus s ->
  fromString p t s = Some z <->
  denotes s z /\ in_range p t z /\ ~ (exists r, s = ascii_of_nat 45 :: r).
Proof.
  intros Hu Hb. rewrite from_unsigned by easy. split.
  - intros [[(c & r & -> & Hc) (z0 & Hd & Ha & Hz)] Hr].
    assert (Hz0 : (0 <= z0)%Z).
    { destruct (Z.leb_spec 0 z0) as [|Hn]; [easy|].
      destruct (denotes_neg _ _ Hd Hn) as [(r' & [= -> ->])|H]; easy. }
    rewrite Z.mod_small in Hz by lia. subst z. split; [easy|]. split; [easy|].
    intros (r' & [= -> ->]). easy.
  - intros (Hd & Hr & Hm). split; [|easy]. split.
    + destruct s as [|c r].
      * apply denotes_subject in Hd. destruct Hd as (? & ? & _ & ? & _). easy.
      * exists c, r. split; [easy|]. intros ->. apply Hm. now exists r.
    + exists z. split; [easy|].
      pose proof (in_range_unsigned_nonneg _ _ _ Hu Hr).
      pose proof (in_range_route _ _ _ Hu Hr). split; [lia|]. symmetry. now apply Z.mod_small.
Qed.

(** Which negative numbers an unsigned type does accept, and as what. *)
Lemma unsigned_negative p t s z0 :
  is_unsigned t = true -> denotes s z0 -> (z0 < 0)%Z ->
  fromString p t s =
    (if match s with c :: _ => Ascii.eqb c (ascii_of_nat 45) | [] => true end then None
     else if (z0 <=? - 2 ^ route_bits p t)%Z then None
     else if (z0 + 2 ^ route_bits p t <=? type_max p t)%Z
          then Some (z0 + 2 ^ route_bits p t)%Z else None).
Proof.
  intros Hu Hd Hz.
  assert (Hmod : (- 2 ^ route_bits p t < z0 -> z0 mod 2 ^ route_bits p t = z0 + 2 ^ route_bits p t)%Z).
  { intros H. symmetry. apply Z.mod_unique with (-1)%Z; [left; lia|lia]. }
  assert (Hmin : type_min p t = 0%Z) by (destruct t; easy).
  assert (N : (~ exists z, fromString p t s = Some z) -> fromString p t s = None).
  { destruct (fromString p t s); [|easy]. intros H. exfalso. eauto. }
  destruct s as [|c r].
  { apply denotes_subject in Hd. destruct Hd as (? & ? & _ & ? & _). easy. }
  destruct (Ascii.eqb_spec c (ascii_of_nat 45)) as [->|Hc].
  - apply N. intros (z & H). apply from_unsigned in H; [|easy].
    destruct H as [[(c & r' & [= <- <-] & Hc) _] _]. easy.
  - destruct (Z.leb_spec z0 (- 2 ^ route_bits p t)) as [Hl|Hl].
    + apply N. intros (z & H). apply from_unsigned in H; [|easy].
      destruct H as [[_ (z1 & Hd1 & Ha & _)] _].
      rewrite (denotes_det _ _ _ Hd1 Hd) in Ha. lia.
    + destruct (Z.leb_spec (z0 + 2 ^ route_bits p t) (type_max p t)) as [Hm|Hm].
      * apply from_unsigned; [easy|]. split; [|unfold in_range; lia].
        split; [now exists c, r|]. exists z0. split; [easy|]. split; [lia|]. now rewrite Hmod.
      * apply N. intros (z & H). apply from_unsigned in H; [|easy].
        destruct H as [[_ (z1 & Hd1 & Ha & ->)] Hr].
        rewrite (denotes_det _ _ _ Hd1 Hd) in Hr. unfold in_range in Hr. rewrite Hmod in Hr by easy. lia.
Qed.
