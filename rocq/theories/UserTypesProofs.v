(** Lemmas about the user-defined types of the examples. *)
From Coq Require Import Ascii String NArith ZArith QArith Qpower Qabs Qround Lqa Bool PeanoNat Lia List.
Import ListNotations.
From Verif Require Import Util Base StringConv StringConvSpec StringConvProofs Serializer SerializerSpec
  SerializerProofs Lexer LexerSpec LexerProofs LexerMeta LexerMore P_Lexer ExecProofs
  FloatConv FloatConvSpec FloatArith FloatRound FloatScan FloatConvProofs FloatRoundTrip P_Float
  FloatSerializer P_FloatSerializer UserTypes UserTypesSpec FloatFixed.

Local Notation length := List.length.
Local Open Scope Q_scope.

(** ** The text with six decimals is unique *)

Lemma nearest_millionth_unique q n n' : nearest_millionth q n -> nearest_millionth q n' -> n = n'.
Proof.
  intros N N'. destruct (Z.eq_dec n n') as [|D]; [assumption|exfalso].
  destruct (N n') as [A T]. destruct (N' n) as [A' T'].
  assert (E : Qabs (q - inject_Z n * (1 # 1000000)) == Qabs (q - inject_Z n' * (1 # 1000000))) by lra.
  specialize (T E (not_eq_sym D)). specialize (T' (Qeq_sym _ _ E) D).
  rewrite Zeven_bool_iff, Zeven_ex_iff in T, T'. destruct T as [a ->], T' as [b ->].
  rewrite !inject_Z_mult in *. change (inject_Z 2) with 2 in *.
  assert (NE : ~ inject_Z a == inject_Z b).
  { intros Q. apply (proj1 (inject_Z_injective a b)) in Q. subst. now apply D. }
  assert (Q : q == (inject_Z a + inject_Z b) * (1 # 1000000)).
  { revert E. apply Qabs_case; apply Qabs_case; intros; try lra; exfalso; apply NE; lra. }
  destruct (N (a + b)%Z) as [L _]. rewrite inject_Z_plus in L.
  assert (Z0 : Qabs (q - (inject_Z a + inject_Z b) * (1 # 1000000)) == 0).
  { rewrite Q. assert (X : (inject_Z a + inject_Z b) * (1 # 1000000) - (inject_Z a + inject_Z b) * (1 # 1000000) == 0) by ring.
    rewrite X. reflexivity. }
  rewrite Z0, inject_Z_mult in L. apply Qabs_Qle_condition in L. change (inject_Z 2) with 2 in L. apply NE. lra.
Qed.

Lemma padded_number fp : forallb isdigit fp = true -> padded (length fp) (number 10 fp) = fp.
Proof.
  induction fp as [|c fp IH] using rev_ind; intros H; [reflexivity|].
  rewrite forallb_app in H. apply andb_true_iff in H. destruct H as [H1 H2].
  cbn [forallb] in H2. rewrite andb_true_r in H2.
  rewrite app_length, Nat.add_comm. cbn [length Nat.add padded]. rewrite number_snoc.
  assert (X : (0 <= xdigit_val c < 10)%Z /\ digit_char (xdigit_val c) = c).
  { unfold xdigit_val. rewrite H2. destruct c as [[] [] [] [] [] [] [] []]; try discriminate H2;
      vm_compute; repeat split; congruence. }
  destruct X as [X1 X2].
  replace ((number 10 fp * 10 + xdigit_val c) / 10)%Z with (number 10 fp).
  2:{ apply Z.div_unique with (xdigit_val c); lia. }
  replace ((number 10 fp * 10 + xdigit_val c) mod 10)%Z with (xdigit_val c).
  2:{ apply Z.mod_unique with (number 10 fp); lia. }
  now rewrite IH, X2.
Qed.

Lemma digits_bound fp : forallb isdigit fp = true -> (0 <= number 10 fp < 10 ^ Z.of_nat (length fp))%Z.
Proof.
  induction fp as [|c fp IH] using rev_ind; intros H; [cbn; lia|].
  rewrite forallb_app in H. apply andb_true_iff in H. destruct H as [H1 H2].
  cbn [forallb] in H2. rewrite andb_true_r in H2. specialize (IH H1).
  assert (X : (0 <= xdigit_val c < 10)%Z).
  { unfold xdigit_val. rewrite H2. destruct c as [[] [] [] [] [] [] [] []]; try discriminate H2;
      vm_compute; repeat split; congruence. }
  rewrite number_snoc, app_length, Nat.add_comm. cbn [length Nat.add].
  rewrite Nat2Z.inj_succ, Z.pow_succ_r by lia. lia.
Qed.

Lemma fixed_text_eq n s : fixed_text n s ->
  s = dec (n / 1000000)%Z ++ "."%char :: padded 6 (n mod 1000000)%Z.
Proof.
  intros [n0 z ip fp C L D]. apply digits_number in D. destruct D as (_ & Dg & En).
  rewrite forallb_app in Dg. apply andb_true_iff in Dg. destruct Dg as [G1 G2].
  assert (B := digits_bound fp G2). rewrite L in B. change (10 ^ Z.of_nat 6)%Z with 1000000%Z in B.
  assert (En' : n0 = (1000000 * number 10 ip + number 10 fp)%Z).
  { rewrite En, number_app, L. change (10 ^ Z.of_nat 6)%Z with 1000000%Z. lia. }
  assert (Nip : ip <> []) by (destruct C; discriminate).
  assert (Dip : digits ip (number 10 ip)) by (apply digits_number; auto).
  assert (Z0 : z = number 10 ip /\ (0 <= z)%Z).
  { pose proof (digits_bound ip G1) as Bi.
    inversion C as [E1 E2|c ds z0 P Dz N E1 E2|z0 s0 P C0 E1 E2]; subst.
    - split; [reflexivity|lia].
    - apply digits_number in Dz. destruct Dz as (_ & _ & ->). split; [reflexivity|lia].
    - discriminate G1. }
  destruct Z0 as [Z0 Zp].
  replace (n0 / 1000000)%Z with z by (apply Z.div_unique with (number 10 fp); lia).
  replace (n0 mod 1000000)%Z with (number 10 fp) by (apply Z.mod_unique with z; lia).
  rewrite <- L at 1. rewrite padded_number by exact G2.
  f_equal. apply (canonical_unique z); [exact Zp|exact C|now apply dec_canonical].
Qed.

Lemma shows_fixed_iff v s : value_in binary32 v -> (shows_fixed v s <-> s = printf_f v).
Proof.
  intros V. split.
  - intros [neg m e n t N T|neg|neg]; [|destruct neg; reflexivity..].
    apply fixed_text_eq in T. subst t. cbn [printf_f]. rewrite f_text_eq.
    rewrite <- (nearest_millionth_unique _ _ _ N (millionths_nearest (dyadic m e))).
    destruct neg; reflexivity.
  - intros ->. destruct v as [neg m e|neg|neg]; cbn [printf_f].
    + replace (minus neg (f_text (dyadic m e))) with (sign_text neg ++ f_text (dyadic m e))
        by (destruct neg; reflexivity).
      econstructor; [apply millionths_nearest|]. apply f_text_fixed. apply dyadic_nonneg. destruct V; lia.
    + destruct neg; [apply (shows_fixed_inf true)|apply (shows_fixed_inf false)].
    + destruct neg; [apply (shows_fixed_nan true)|apply (shows_fixed_nan false)].
Qed.

(** ** Texts of numbers in a command *)

(** Letters, digits, points and signs. *)
Definition plain_b (c : byte) : bool :=
  let x := nat_of_ascii c in
  ((48 <=? x) && (x <=? 57) || (65 <=? x) && (x <=? 90) || (97 <=? x) && (x <=? 122) ||
   (x =? 46) || (x =? 43) || (x =? 45) || (x =? 95))%nat.
Definition plain (s : bytes) : Prop := forallb plain_b s = true.

Lemma plain_app a b : plain a -> plain b -> plain (a ++ b).
Proof. unfold plain. intros A B. now rewrite forallb_app, A, B. Qed.

Lemma plain_app_inv a b : plain (a ++ b) -> plain a /\ plain b.
Proof. unfold plain. rewrite forallb_app. apply andb_true_iff. Qed.

Lemma digits_plain s z : digits s z -> plain s.
Proof.
  intros H. apply digits_number in H. destruct H as (_ & H & _). unfold plain.
  rewrite forallb_forall in *. intros c I. specialize (H c I).
  destruct c as [[] [] [] [] [] [] [] []]; try discriminate H; reflexivity.
Qed.

Lemma decimal_plain s q : decimal_text s q -> plain s.
Proof.
  intros [ip ft fp ex z x F D E]. apply digits_plain in D. apply plain_app_inv in D. destruct D as [A B].
  repeat apply plain_app; [exact A| |].
  - destruct F; [reflexivity|]. now apply (plain_app ["."%char]).
  - destruct E as [|c sg f ds z' C S D]; [reflexivity|]. apply (plain_app [c]).
    + inversion C as [|a b la lb H _]; subst. destruct H as [->|H]; [reflexivity|].
      change (nat_of_ascii "e"%char) with 101%nat in H.
      unfold plain. cbn [forallb plain_b]. rewrite andb_true_r. unfold plain_b.
      assert (nat_of_ascii c = 69%nat) as -> by lia. reflexivity.
    + apply plain_app; [destruct S; reflexivity|]. now apply digits_plain in D.
Qed.

Lemma minus_plain neg s : plain s -> plain (minus neg s).
Proof. intros H. destruct neg; [now apply (plain_app ["-"%char])|exact H]. Qed.

Lemma minus_not_nil neg s : s <> [] -> minus neg s <> [].
Proof. now destruct neg. Qed.

Lemma decimal_not_nil s q : decimal_text s q -> s <> [].
Proof.
  intros [ip ft fp ex z x F D E] H. apply app_eq_nil in H. destruct H as [-> H].
  apply app_eq_nil in H. destruct H as [-> _]. inversion F; subst.
  apply digits_number in D. now destruct D as (D & _).
Qed.

Lemma printf_f_plain v : value_in binary32 v -> plain (printf_f v) /\ printf_f v <> [].
Proof.
  intros V. destruct v as [neg m e|neg|neg]; [|destruct neg; split; easy..].
  cbn [printf_f]. destruct (f_text_decimal (dyadic m e)) as (D & HD & _).
  { apply dyadic_nonneg. destruct V; lia. }
  split; [apply minus_plain; eapply decimal_plain; eauto|apply minus_not_nil; eapply decimal_not_nil; eauto].
Qed.

Lemma printf_g_plain v : value_in binary32 v -> plain (printf_g v) /\ printf_g v <> [].
Proof.
  intros V. destruct v as [neg m e|neg|neg]; [|destruct neg; split; easy..].
  cbn [printf_g]. destruct (Z.eqb_spec m 0) as [->|N]; [destruct neg; split; easy|].
  destruct (g_text_denotes (dyadic m e)) as (d & X & D & _ & _ & _ & HD & _).
  { destruct V as [V _]. unfold dyadic. apply Qmult_lt_0_compat; [|apply pow2_pos].
    change 0 with (inject_Z 0). rewrite <- Zlt_Qlt. lia. }
  split; [apply minus_plain; eapply decimal_plain; eauto|apply minus_not_nil; eapply decimal_not_nil; eauto].
Qed.

Lemma plain_char sg c : plain_b c = true ->
  let C := cfg_classes sg default_cfg in
  k_word C c = true /\ sep C c = false /\ quo C c = false /\ k_paren C c = false.
Proof.
  destruct sg; destruct c as [[] [] [] [] [] [] [] []]; intros H; try discriminate H;
    repeat split; vm_compute; reflexivity.
Qed.

Lemma bare_name_plain s : bare_name s -> plain s.
Proof.
  intros [_ H]. unfold plain. rewrite forallb_forall. rewrite Forall_forall in H. intros c I.
  specialize (H c I). destruct H as [[(d & D)|[->|H]]|[->| ->]]; try reflexivity.
  - assert (P := digits_plain [c] d (digits_one c d D)). unfold plain in P. cbn [forallb] in P.
    now rewrite andb_true_r in P.
  - unfold plain_b. destruct H as [[A B]|[A B]]; rewrite !(proj2 (Nat.leb_le _ _) A), !(proj2 (Nat.leb_le _ _) B);
      cbn [andb]; now rewrite ?orb_true_r.
Qed.

(** A name, a space and a pair in parentheses. *)
Lemma pair_parses sg name s t ws : bare_name name -> plain s -> s <> [] -> plain t -> t <> [] ->
  ws = [","%char] \/ ws = [","%char; " "%char] ->
  parse_input sg default_cfg (name ++ " "%char :: "("%char :: s ++ ws ++ t ++ [")"%char]) =
  Done (Value (Input name [[s; t]] [])).
Proof.
  intros Hn Ps Ns Pt Nt W.
  set (C := cfg_classes sg default_cfg).
  assert (Pn := bare_name_plain name Hn). destruct Hn as [Nn _].
  destruct name as [|c w]; [easy|].
  assert (K : forall x, plain x -> all (k_word C) x /\ none (sep C) x /\ none (quo C) x /\ none (k_paren C) x).
  { intros x P. unfold plain in P. rewrite forallb_forall in P.
    split; [|split; [|split]]; intros a I; apply (plain_char sg a (P a I)). }
  assert (Sp : all (sep C) ws /\ none (k_paren C) ws /\ ws <> []).
  { destruct W as [->| ->]; (split; [|split; [|discriminate]]); intros a I; simpl in I;
      repeat destruct I as [<-|I]; try easy; destruct sg; vm_compute; reflexivity. }
  destruct Sp as (Sp1 & Sp2 & Sp3).
  apply (C04_parse_written sg default_cfg (c :: w) [WPos [s; t]]).
  exists (LWord c w), [LGroup "("%char (s ++ ws ++ t) ")"%char]. split; [|split].
  - constructor. destruct (K _ Pn) as (_ & A & _). destruct (existsb (sep C) w) eqn:E; [|exact E].
    apply existsb_exists in E. destruct E as (a & I & E). fold C in A. rewrite (A a) in E; [discriminate|now right].
  - constructor; [|constructor]. constructor.
    destruct (K s Ps) as (_ & S1 & S2 & _). destruct (K t Pt) as (_ & T1 & T2 & _).
    change (s ++ ws ++ t) with ([] ++ s ++ (ws ++ t)).
    apply ws_cons; [intros a []|now constructor| |].
    + destruct ws as [|a ws]; [easy|]. cbn [app]. apply Sp1. now left.
    + replace (ws ++ t) with (ws ++ t ++ []) by now rewrite app_nil_r.
      apply ws_cons; [exact Sp1|now constructor|exact I|]. constructor. intros a [].
  - replace ((c :: w) ++ " "%char :: "("%char :: s ++ ws ++ t ++ [")"%char])
      with ([] ++ lexeme_text (LWord c w) ++ ([" "%char] ++
              lexeme_text (LGroup "("%char (s ++ ws ++ t) ")"%char) ++ ([] ++ open_text Closed))).
    2:{ cbn [lexeme_text open_text app]. rewrite <- !app_assoc. reflexivity. }
    apply lay_cons; [intros a []| |discriminate|].
    + destruct (K _ Pn) as (A & _). split; [apply A; now left|intros a I; apply A; now right].
    + apply lay_cons; [intros a [<-|[]]; destruct sg; vm_compute; reflexivity| |discriminate|].
      * cbn [lexeme_ok]. split; [destruct sg; vm_compute; reflexivity|]. split; [|destruct sg; vm_compute; reflexivity].
        intros a I. apply in_app_iff in I. destruct I as [I|I]; [now apply (K s Ps)|].
        apply in_app_iff in I. destruct I as [I|I]; [now apply Sp2|now apply (K t Pt)].
      * apply lay_end; [intros a []|exact I].
Qed.

Lemma name_parses sg name : bare_name name ->
  parse_input sg default_cfg name = Done (Value (Input name [] [])).
Proof.
  intros Hn. set (C := cfg_classes sg default_cfg).
  assert (Pn := bare_name_plain name Hn). destruct Hn as [Nn _].
  destruct name as [|c w]; [easy|].
  assert (K : all (k_word C) (c :: w) /\ none (sep C) (c :: w)).
  { unfold plain in Pn. rewrite forallb_forall in Pn.
    split; intros a I; apply (plain_char sg a (Pn a I)). }
  destruct K as [K1 K2].
  apply (C04_parse_written sg default_cfg (c :: w) []). exists (LWord c w), []. split; [|split].
  - constructor. destruct (existsb (sep C) w) eqn:E; [|exact E].
    apply existsb_exists in E. destruct E as (a & I & E). fold C in K2. rewrite (K2 a) in E; [discriminate|now right].
  - constructor.
  - replace (c :: w) with ([] ++ lexeme_text (LWord c w) ++ ([] ++ open_text Closed))
      by (cbn [lexeme_text open_text app]; rewrite ?app_nil_r; reflexivity).
    apply lay_cons; [intros a []| |discriminate|].
    + split; [apply K1; now left|intros a I; apply K1; now right].
    + apply lay_end; [intros a []|exact I].
Qed.

(** ** Reading pairs *)

Lemma binary32_sane : sane binary32.
Proof. unfold sane. cbn. lia. Qed.

Lemma float_ser_value uf s x : from_value (float_ser uf) [s] = Value x <-> conversion binary32 uf s x.
Proof.
  unfold float_ser. rewrite (C59_accept_iff binary64 uf TFloat [s] x (or_introl eq_refl)). split.
  - now intros (s' & [= <-] & H).
  - intros H. exists s. now split.
Qed.

Lemma float_ser_error uf s e : no_nul s ->
  (from_value (float_ser uf) [s] = Error e <->
   ~ is_float uf s /\ conversion_error (lit "float") [s] None e).
Proof.
  intros Hs. unfold float_ser. rewrite C59_error_iff.
  - split.
    + intros [(s' & [= <-] & N & C)|[L _]]; [|now elim L]. split; [|exact C]. intros (x & X). now apply (N x).
    + intros [N C]. left. exists s. split; [reflexivity|]. split; [|exact C]. intros x X. apply N. now exists x.
  - now left.
  - intros a [<-|[]]. exact Hs.
Qed.

Lemma value_in_conversion uf s x : conversion binary32 uf s x -> value_in binary32 x.
Proof. intros [neg q m e _ _ [M _] _|neg _|neg _]; exact M || exact I. Qed.

Lemma error_text_ok name v d m : no_nul name -> value_no_nul v ->
  match d with Some d => no_nul d | None => True end ->
  conversion_error name v d m -> m <> [] /\ no_nul m.
Proof.
  intros NT Nv Nd H.
  assert (Nr : forall r, joined (lit " ") v r -> no_nul r).
  { intros r J. eapply joined_no_nul; [|exact Nv|exact J]. now apply no_nul_lit. }
  destruct H as [r J|r d J]; specialize (Nr r J); (split; [discriminate|]);
    repeat apply no_nul_app; try assumption; now apply no_nul_lit.
Qed.

Lemma float_error_ok uf s e : no_nul s -> from_value (float_ser uf) [s] = Error e -> e <> [] /\ no_nul e.
Proof.
  intros Hs E. apply float_ser_error in E; [|exact Hs]. destruct E as [_ C].
  apply (error_text_ok (lit "float") [s] None e); [now apply no_nul_lit| |exact I|exact C].
  intros a [<-|[]]. exact Hs.
Qed.

(** ** %g *)

Lemma f_reread uf v : value_in binary32 v -> exists v', value_in binary32 v' /\
  floatFromString binary32 uf (printf_f v) = Some v' /\ printf_f v' = printf_f v /\ close v v' /\
  (at_least_16 v -> v' = v).
Proof.
  intros V. destruct v as [neg m e|neg|neg].
  - destruct (fixed_reread binary32 (or_introl eq_refl) uf neg m e V) as (m' & e' & M & P & T & D & _).
    exists (Fin neg m' e'). split; [exact M|]. split; [exact P|]. split; [exact T|].
    split; [now constructor|]. intros G.
    assert (X := fixed_exact uf neg m e V G). rewrite P in X. now injection X as -> ->.
  - exists (Inf neg). split; [exact I|]. split; [destruct neg, uf; now vm_compute|].
    split; [reflexivity|]. split; [constructor|reflexivity].
  - exists (NaN neg). split; [exact I|]. split; [destruct neg, uf; now vm_compute|].
    split; [reflexivity|]. split; [constructor|reflexivity].
Qed.

Lemma g_reread_any uf v : value_in binary32 v -> not_tiny v -> exists v', value_in binary32 v' /\
  floatFromString binary32 uf (printf_g v) = Some v' /\ printf_g v' = printf_g v.
Proof.
  intros V T. destruct v as [neg m e|neg|neg].
  - destruct (g_reread uf neg m e V T) as (m' & e' & M & P & E). exists (Fin neg m' e'). auto.
  - exists (Inf neg). split; [exact I|]. split; [destruct neg, uf; now vm_compute|reflexivity].
  - exists (NaN neg). split; [exact I|]. split; [destruct neg, uf; now vm_compute|reflexivity].
Qed.

(** ** Products *)

Lemma times_product v c x : value_in binary32 v -> 0 < c -> (times v c = x <-> product v c x).
Proof.
  intros V Hc. pose proof binary32_sane as Hs. destruct v as [neg m e|neg|neg].
  2,3: cbn [times]; split; [intros <-; constructor|now inversion 1].
  cbn [times]. destruct V as (Vm & Ve & Vs) eqn:EV. clear EV.
  destruct (Z.eqb_spec m 0) as [->|N].
  - assert (Z0 : inject_Z 0 * 2 ^ e * c == 0) by (change (inject_Z 0) with 0; ring).
    assert (E : e = emin binary32) by (apply Vs; cbn; lia). subst e.
    assert (NZ : nearest_magnitude binary32 (inject_Z 0 * 2 ^ emin binary32 * c) 0 (emin binary32))
      by (apply nearest_zero; assumption).
    assert (NT : ~ too_large binary32 (inject_Z 0 * 2 ^ emin binary32 * c)).
    { unfold too_large. rewrite Z0. intros T. apply Qle_bool_iff in T. vm_compute in T. discriminate. }
    split.
    + intros <-. now constructor.
    + inversion 1 as [neg0 m0 e0 c0 m' e' T M|neg0 m0 e0 c0 T| |]; subst; [|contradiction].
      destruct (nearest_unique _ _ _ _ _ _ Hs NZ M) as [-> ->]. reflexivity.
  - assert (Hq : 0 < dyadic m e * c).
    { apply Qmult_lt_0_compat; [|exact Hc]. unfold dyadic. apply Qmult_lt_0_compat; [|apply pow2_pos].
      change 0 with (inject_Z 0). rewrite <- Zlt_Qlt. lia. }
    destruct (round_fmt binary32 (dyadic m e * c)) as [m' e'] eqn:R.
    destruct (round_fmt_spec binary32 _ m' e' Hs Hq R) as (TL & NM & _).
    destruct (Z.ltb_spec (emax binary32) e') as [L|L].
    + split.
      * intros <-. constructor. apply TL. exact L.
      * inversion 1 as [neg0 m0 e0 c0 m1 e1 T M|neg0 m0 e0 c0 T| |]; subst; [|reflexivity].
        exfalso. apply T. apply TL. exact L.
    + assert (NT : ~ too_large binary32 (dyadic m e * c)) by (rewrite <- TL; lia).
      split.
      * intros <-. constructor; [exact NT|now apply NM].
      * inversion 1 as [neg0 m0 e0 c0 m1 e1 T M|neg0 m0 e0 c0 T| |]; subst; [|contradiction].
        destruct (nearest_unique _ _ _ _ _ _ Hs (NM L) M) as [-> ->]. reflexivity.
Qed.

Lemma degrees_positive : 0 < degrees_per_radian.
Proof. apply Qltb_iff. now vm_compute. Qed.

Lemma degrees_constant : radian_in_degrees degrees_per_radian.
Proof.
  exists 13176795%Z, (-22)%Z, 15019744%Z, (-18)%Z. split; [|split; [|reflexivity]].
  - destruct (round_fmt_spec binary32 (314159265358979 # 100000000000000) 13176795 (-22) binary32_sane) as (_ & N & _);
      [reflexivity|now vm_compute|]. apply N. cbn. lia.
  - apply nearest_comp with (180 / dyadic 13176795 (-22)); [reflexivity|].
    destruct (round_fmt_spec binary32 (180 / dyadic 13176795 (-22)) 15019744 (-18) binary32_sane) as (_ & N & _);
      [apply Qltb_iff; now vm_compute|now vm_compute|]. apply N. cbn. lia.
Qed.

(** ** Numbers do not end in s *)

Lemma spells_no_s w : forallb (fun c => (nat_of_ascii c <? 115) || (115 <? nat_of_ascii c) && (nat_of_ascii c <? 147))%nat w = true ->
  forall s, spells s w -> ~ In "s"%char s.
Proof.
  intros L s H. unfold spells in H. revert L.
  induction H as [|c l s w H _ IH]; intros L; [easy|]. cbn [forallb] in L.
  apply andb_true_iff in L. destruct L as [L1 L2]. intros [->|I]; [|now apply IH].
  rewrite orb_true_iff, andb_true_iff, !Nat.ltb_lt in L1.
  change (nat_of_ascii "s"%char) with 115%nat in H. destruct H as [<-|H]; [vm_compute in L1; lia|lia].
Qed.

Lemma digits_no_s s z : digits s z -> ~ In "s"%char s.
Proof.
  intros H I. apply digits_number in H. destruct H as (_ & H & _).
  rewrite forallb_forall in H. specialize (H _ I). discriminate H.
Qed.

Lemma xdigit_not_s c d : xdigit c d -> c <> "s"%char.
Proof.
  intros [c' d' H|n H|n H] E.
  - subst c'. apply (digits_no_s ["s"%char] d'); [now constructor|now left].
  - do 6 (destruct n as [|n]; [discriminate E|]). lia.
  - do 6 (destruct n as [|n]; [discriminate E|]). lia.
Qed.

Lemma xdigits_no_s s z : xdigits s z -> ~ In "s"%char s.
Proof.
  induction 1 as [c d H|s c z d _ IH H]; intros I.
  - destruct I as [->|[]]. now apply xdigit_not_s in H.
  - apply in_app_iff in I. destruct I as [I|[->|[]]]; [now apply IH|]. now apply xdigit_not_s in H.
Qed.

Lemma fraction_no_s ip ft fp : fraction ft fp -> ~ In "s"%char (ip ++ fp) -> ~ In "s"%char (ip ++ ft).
Proof.
  intros F H I. apply in_app_iff in I. destruct I as [I|I]; [apply H, in_app_iff; now left|].
  destruct F as [|fp]; [easy|]. destruct I as [I|I]; [discriminate I|]. apply H, in_app_iff. now right.
Qed.

Lemma exponent_no_s l s x : l = "e"%char \/ l = "p"%char -> exponent l s x -> ~ In "s"%char s.
Proof.
  intros L [|c sg f ds z C S D]; [easy|]. intros [->|I].
  - revert C. intros C. apply (spells_no_s [l]) in C; [apply C; now left|]. destruct L; subst; reflexivity.
  - apply in_app_iff in I. destruct I as [I|I]; [|now apply digits_no_s in D].
    destruct S; simpl in I; [easy|destruct I as [I|[]]; discriminate I..].
Qed.

Lemma float_text_end s neg M : float_text (s ++ ["s"%char]) neg M -> False.
Proof.
  intros H. inversion H as [ws sg neg' u M' B S U E]. subst neg' M'.
  assert (L : last (ws ++ sg ++ u) " "%char = "s"%char) by (rewrite E; apply last_last).
  assert (Nu : u <> []).
  { intros ->. inversion U as [s0 q D|s0 q D|s0 D|s0 D|s0 t D T]; subst.
    - now apply decimal_not_nil in D.
    - inversion D.
    - inversion D.
    - inversion D.
    - match goal with K : _ ++ _ = [] |- _ => apply app_eq_nil in K; destruct K as [-> _] end. inversion D. }
  destruct (exists_last Nu) as (u' & c & Eu).
  assert (Ec : c = "s"%char).
  { rewrite <- L, Eu, !app_assoc. now rewrite last_last. }
  subst c.
  assert (In "s"%char u) by (rewrite Eu; apply in_app_iff; right; now left).
  destruct U as [s0 q D|s0 q D|s0 D|s0 D|s0 t D T].
  - destruct D as [ip ft fp ex z x F D X]. apply digits_no_s in D. apply (fraction_no_s _ _ _ F) in D.
    apply exponent_no_s in X; [|now left]. rewrite app_assoc in H0. apply in_app_iff in H0. now destruct H0.
  - destruct D as [c ip ft fp ex z x C F D X]. apply xdigits_no_s in D. apply (fraction_no_s _ _ _ F) in D.
    apply exponent_no_s in X; [|now right].
    destruct H0 as [K|[->|K]]; [discriminate K| |].
    + apply (spells_no_s (lit "x")) in C; [apply C; now left|reflexivity].
    + rewrite app_assoc in K. apply in_app_iff in K. now destruct K.
  - now apply (spells_no_s (lit "inf")) in D.
  - now apply (spells_no_s (lit "infinity")) in D.
  - apply (spells_no_s (lit "nan")) in D; [|reflexivity]. destruct T as [|r R].
    + rewrite app_nil_r in H0. contradiction.
    + change ("("%char :: r ++ [")"%char]) with (("("%char :: r) ++ [")"%char]) in Eu. rewrite app_assoc in Eu.
      apply app_inj_tail in Eu. destruct Eu as [_ Eu]. discriminate Eu.
Qed.

Lemma conversion_end uf s x : ~ conversion binary32 uf (s ++ ["s"%char]) x.
Proof. intros [neg q m e H _ _ _|neg H|neg H]; now apply float_text_end in H. Qed.
