(** sprintf produces the text PrintfSpec.v speaks of. *)
From Coq Require Import Ascii String NArith ZArith Bool PeanoNat Lia List.
From Verif Require Import Util Base StringConv StringConvSpec StringConvProofs SerializerSpec
  SerializerProofs ExecProofs FloatConv Mem MemProofs StringMem StringMemSpec StringMemProofs
  Printf PrintfSpec.
Import ListNotations.

(** ** Numbers *)
Lemma canonical_d v d : canonical v d -> d = printf_d v.
Proof.
  intros H. unfold printf_d. destruct (Z.ltb_spec v 0) as [Hv|Hv].
  - inversion H as [|? ? ? ? ? ?|z s Hz Hc]; subst; try lia. f_equal.
    apply (canonical_unique z); [lia|assumption|]. rewrite Z.opp_involutive. apply dec_canonical. lia.
  - apply (canonical_unique v); [lia|assumption|]. now apply dec_canonical.
Qed.

Lemma canonical_u v d : (0 <= v)%Z -> canonical v d -> d = printf_u v.
Proof. intros Hv H. apply (canonical_unique v); [lia|assumption|]. now apply dec_canonical. Qed.

Lemma char_back sg c : ascii_of_N (Z.to_N (char_val sg c mod 256)) = c.
Proof.
  unfold char_val, uchar. pose proof (N_ascii_bounded c) as Hb.
  enough (Z.to_N ((if sg && (128 <=? Z.of_N (N_of_ascii c))%Z then Z.of_N (N_of_ascii c) - 256
                   else Z.of_N (N_of_ascii c)) mod 256) = N_of_ascii c) as ->
    by apply ascii_N_embedding.
  destruct (sg && _).
  - replace (Z.of_N (N_of_ascii c) - 256)%Z with (Z.of_N (N_of_ascii c) + (-1) * 256)%Z by lia.
    rewrite Z_mod_plus_full, Z.mod_small by lia. apply N2Z.id.
  - rewrite Z.mod_small by lia. apply N2Z.id.
Qed.

Lemma to_int_small imax n : n <= imax -> to_int imax n = Z.of_nat n.
Proof.
  intros H. unfold to_int. rewrite Nat.mod_small by lia.
  destruct (Nat.leb_spec n imax); [reflexivity|lia].
Qed.

Lemma to_size_small W n : n < W -> to_size W (Z.of_nat n) = n.
Proof. intros H. unfold to_size. rewrite Z.mod_small by lia. apply Nat2Z.id. Qed.

(** ** Memory *)
Lemma points_app h p s r : points h p (s ++ r) -> points h p s.
Proof.
  intros (Hv & H). split; [assumption|]. intros i c Hi. apply H.
  rewrite nth_error_app1; [assumption|]. apply nth_error_Some. congruence.
Qed.

Lemma load_value_stable (h h' : mem) k' p i c :
  evolves h None h' k' -> load_value h p i = Done c -> load_value h' p i = Done c.
Proof.
  intros E. destruct p as [|b o|l]; cbn; try (intros H; exact H).
  unfold load_value, load, find_block. destruct (nth_error (blocks h) b) as [[cs|]|] eqn:Hb;
    cbn; try discriminate. intros H.
  destruct (proj2 E b cs Hb) as (Hl & _); [discriminate|]. unfold live in Hl. rewrite Hl. exact H.
Qed.

Lemma valid_stable (h h' : mem) k' p :
  evolves h None h' k' -> valid h p = Done tt -> valid h' p = Done tt.
Proof.
  intros E. destruct p as [|b o|l]; cbn; try (intros H; exact H).
  unfold find_block. destruct (nth_error (blocks h) b) as [[cs|]|] eqn:Hb;
    cbn; try discriminate. intros H.
  destruct (proj2 E b cs Hb) as (Hl & _); [discriminate|]. unfold live in Hl. rewrite Hl. exact H.
Qed.

Lemma points_stable h h' k' p s : evolves h None h' k' -> points h p s -> points h' p s.
Proof.
  intros E (H1 & H2). split; [eapply valid_stable; eassumption|].
  intros i c Hi. eapply load_value_stable; eauto.
Qed.

Lemma c_text_stable h h' k' p s : evolves h None h' k' -> c_text h p s -> c_text h' p s.
Proof. intros E (H1 & H2). split; [eapply points_stable; eassumption|assumption]. Qed.

Lemma given_stable imax h h' k' args a :
  evolves h None h' k' -> given imax h args a -> given imax h' args a.
Proof.
  intros E H. induction H; constructor; auto.
  - eapply c_text_stable; eassumption.
  - eapply points_stable; eassumption.
Qed.

Lemma valid_other (h h' : mem) k p o :
  evolves h None h' (Some k) -> valid h p = Done tt -> same_block (At k o) p = false.
Proof.
  intros E H. destruct p as [|b o'|l]; try reflexivity. cbn in *.
  unfold find_block in H. destruct (nth_error (blocks h) b) as [[cs|]|] eqn:Hb;
    cbn in H; try discriminate.
  destruct (proj2 E b cs Hb) as (_ & Hn); [discriminate|].
  apply Nat.eqb_neq. congruence.
Qed.

Lemma given_other imax h h' k o args a :
  evolves h None h' (Some k) -> given imax h args a ->
  existsb (overwrites (At k o)) args = false.
Proof.
  intros E H. induction H as [|t v r a _ _ IH|n r a _ IH|v r a _ IH|v r a _ IH|sg c r a _ IH
    |p s r a Hp _ IH|p s r a Hp _ _ IH]; cbn [existsb overwrites orb]; auto.
  - rewrite (valid_other _ _ _ _ _ E (proj1 (proj1 Hp))). exact IH.
  - rewrite (valid_other _ _ _ _ _ E (proj1 Hp)). exact IH.
Qed.

(** Bytes [s] from index [i] on. *)
Definition points_from (h : mem) (p : ptr) (i : nat) (s : bytes) : Prop :=
  forall j c, nth_error s j = Some c -> load_value h p (i + j) = Done c.

Lemma points_from_cons h p i c s :
  points_from h p i (c :: s) -> load_value h p i = Done c /\ points_from h p (S i) s.
Proof.
  intros H. split.
  - specialize (H 0 c eq_refl). now rewrite Nat.add_0_r in H.
  - intros j d Hj. specialize (H (S j) d Hj). now rewrite Nat.add_succ_r in H.
Qed.

Lemma points_from_0 h p s : points h p s -> points_from h p 0 s.
Proof. intros (_ & H) j c Hj. now apply H. Qed.

Lemma view_bytes_from_ok h p : forall s i,
  points_from h p i s -> view_bytes_from h p i (length s) = Done s.
Proof.
  induction s as [|c s IH]; intros i H; [reflexivity|].
  apply points_from_cons in H as (Hc & Hs). cbn. rewrite Hc. cbn [bind].
  rewrite (IH _ Hs). reflexivity.
Qed.

Lemma strlen_from_ok h p : forall s i fuel,
  points_from h p i (s ++ [NUL]) -> ~ In NUL s -> length s < fuel ->
  strlen_from h p i fuel = Done (length s).
Proof.
  induction s as [|c s IH]; intros i fuel H Hn Hf; (destruct fuel; [cbn in Hf; lia|]);
    cbn [app] in H; apply points_from_cons in H as (Hc & Hs); cbn [strlen_from]; rewrite Hc;
    cbn [bind].
  - reflexivity.
  - destruct (Ascii.eqb_spec c NUL) as [->|_]; [exfalso; apply Hn; left; reflexivity|].
    rewrite (IH (S i) fuel Hs); [reflexivity|intros X; apply Hn; right; exact X|cbn in Hf; lia].
Qed.

(** The indices that can be read lie inside the object. *)
Lemma load_value_bound (h : mem) p i c : load_value h p i = Done c -> i < object_size h p.
Proof.
  unfold load_value. destruct p as [|b o|l]; cbn; try discriminate.
  - unfold find_block. destruct (nth_error (blocks h) b) as [[cs|]|]; cbn; try discriminate.
    destruct (nth_error cs (o + i)) eqn:E; cbn; [|discriminate]. intros _.
    assert (o + i < length cs) by (apply nth_error_Some; congruence). lia.
  - destruct (nth_error l i) eqn:E; cbn; [|discriminate]. intros _.
    apply nth_error_Some. congruence.
Qed.

Lemma read_str_ok h p s : c_text h p s -> read_str h p = Done s.
Proof.
  intros (H & Hn). pose proof (points_from_0 _ _ _ H) as Hf. unfold read_str, strlen.
  rewrite (strlen_from_ok h p s 0 _ Hf Hn).
  - cbn [bind]. apply view_bytes_from_ok. apply points_from_0. eapply points_app, H.
  - assert (load_value h p (length s) = Done NUL) as L.
    { apply (proj2 H). rewrite nth_error_app2, Nat.sub_diag by lia. reflexivity. }
    apply load_value_bound in L. lia.
Qed.

Lemma NUL_is : NUL = ascii_of_nat 0.
Proof. reflexivity. Qed.

Lemma read_upto_ok h p : forall u r i,
  points_from h p i (u ++ r) -> ~ In NUL u -> (r = [] \/ exists q, r = NUL :: q) ->
  read_upto h p i (length (u ++ r)) = Done u.
Proof.
  induction u as [|c u IH]; intros r i H Hn Hr.
  - destruct Hr as [->|(q & ->)]; [reflexivity|]. cbn [app] in *.
    apply points_from_cons in H as (Hc & _). cbn [length read_upto]. rewrite Hc. reflexivity.
  - cbn [app] in *. apply points_from_cons in H as (Hc & Hs). cbn [length read_upto].
    rewrite Hc. cbn [bind].
    destruct (Ascii.eqb_spec c NUL) as [->|_]; [exfalso; apply Hn; left; reflexivity|].
    rewrite (IH r (S i) Hs); [reflexivity|intros X; apply Hn; right; exact X|assumption].
Qed.

Lemma read_view_ok h p s u :
  points h p s -> before_nul s u -> read_upto h p 0 (length s) = Done u.
Proof.
  intros H B. apply points_from_0 in H. destruct B as [s Hn|s r Hn].
  - rewrite <- (app_nil_r s) at 1. apply read_upto_ok.
    + now rewrite app_nil_r.
    + exact Hn.
    + left. reflexivity.
  - apply read_upto_ok; [assumption|exact Hn|]. right. exists r. reflexivity.
Qed.

(** ** The text *)
Lemma find_int ty w f : int_conv ty w -> find_conv conversions (w ++ f) = Some (CvInt ty, f).
Proof. intros []; reflexivity. Qed.

Lemma int_percent ty w : int_conv ty w -> exists w', w = "%"%char :: w'.
Proof. intros []; eexists; reflexivity. Qed.

Lemma convert_int h ty w v d r :
  int_conv ty w -> (is_unsigned ty = true -> 0 <= v)%Z -> canonical v d ->
  convert h (CvInt ty) (VInt ty v :: r) = Done (d, r).
Proof.
  intros Hw Hv Hd.
  destruct Hw; cbn [convert]; f_equal; f_equal; symmetry;
    try (now apply canonical_d); (apply canonical_u; [now apply Hv|assumption]).
Qed.

(** One conversion in a format. *)
Lemma render_conv n h w f args cv t rest u :
  length (w ++ f) <= n -> (exists w', w = "%"%char :: w') ->
  find_conv conversions (w ++ f) = Some (cv, f) -> convert h cv args = Done (t, rest) ->
  (forall m, length f <= m -> render m h f rest = Done u) ->
  render n h (w ++ f) args = Done (t ++ u).
Proof.
  intros Hn (w' & ->) Hf Hc Hu. cbn [app] in *. destruct n as [|n]; [cbn in Hn; lia|].
  cbn [render Ascii.eqb Bool.eqb]. rewrite Hf, Hc. cbn [bind snd fst].
  rewrite Hu; [reflexivity|]. cbn in Hn. rewrite app_length in Hn. lia.
Qed.

Lemma render_ok imax h f a t : prints f a t -> forall args n,
  given imax h args a -> length f <= n -> render n h f args = Done t.
Proof.
  induction 1 as [a|c f a t Hc _ IH|f a t _ IH|c f a t _ IH|ty w v d f a t Hw Hd _ IH
    |k d f a t Hd _ IH|v f a t _ IH|v f a t _ IH|s f a t _ IH|s u f a t Hb _ IH];
    intros args n Hg Hn.
  - destruct n; reflexivity.
  - destruct n as [|n]; [cbn in Hn; lia|]. cbn [render].
    destruct (Ascii.eqb_spec c "%"%char) as [->|_]; [contradiction|].
    rewrite (IH args n Hg); [reflexivity|cbn in Hn; lia].
  - change ("%"%char :: t) with (lit "%" ++ t).
    eapply render_conv; [exact Hn|eexists; reflexivity|reflexivity|reflexivity|].
    intros m Hm. now apply IH.
  - change (c :: t) with ([c] ++ t). inversion Hg as [| | | | |sg c' r a' Hr| |]; subst.
    eapply render_conv; [exact Hn|eexists; reflexivity|reflexivity| |].
    + cbn [convert]. rewrite char_back. reflexivity.
    + intros m Hm. now apply IH.
  - inversion Hg as [|t' v' r a' Hv Hr| | | | | |]; subst.
    eapply render_conv; [exact Hn|eapply int_percent, Hw|apply find_int, Hw| |].
    + eapply convert_int; eassumption.
    + intros m Hm. now apply IH.
  - inversion Hg as [| |k' r a' Hr| | | | |]; subst.
    eapply render_conv; [exact Hn|eexists; reflexivity|reflexivity| |].
    + cbn [convert]. rewrite <- (canonical_zu _ _ Hd). reflexivity.
    + intros m Hm. now apply IH.
  - inversion Hg as [| | |v' r a' Hr| | | |]; subst.
    eapply render_conv; [exact Hn|eexists; reflexivity|reflexivity|reflexivity|].
    intros m Hm. now apply IH.
  - inversion Hg as [| | | |v' r a' Hr| | |]; subst.
    eapply render_conv; [exact Hn|eexists; reflexivity|reflexivity|reflexivity|].
    intros m Hm. now apply IH.
  - inversion Hg as [| | | | | |p s' r a' Hp Hr|]; subst.
    eapply render_conv; [exact Hn|eexists; reflexivity|reflexivity| |].
    + cbn [convert]. rewrite (read_str_ok _ _ _ Hp). reflexivity.
    + intros m Hm. now apply IH.
  - inversion Hg as [| | | | | | |p s' r a' Hp Hl Hr]; subst.
    eapply render_conv; [exact Hn|eexists; reflexivity|reflexivity| |].
    + cbn [convert]. rewrite to_int_small by assumption.
      destruct (Z.ltb_spec (Z.of_nat (length s)) 0) as [|_]; [lia|].
      rewrite (proj1 Hp), Nat2Z.id. cbn [bind]. rewrite (read_view_ok _ _ _ _ Hp Hb). reflexivity.
    + intros m Hm. now apply IH.
Qed.

Section Calls.
Variables (W imax : nat) (strict : bool).
Local Notation vsnprintf := (vsnprintf imax strict).
Local Notation vsprintf := (vsprintf W imax strict).

(** The first pass. *)
Lemma measure_ok h fmt f args a t :
  c_text h fmt f -> given imax h args a -> prints f a t ->
  vsnprintf h Null 0 fmt args =
  Done (h, if imax <? length t then (-1)%Z else Z.of_nat (length t)).
Proof.
  intros Hf Hg Hp. unfold Printf.vsnprintf. rewrite (read_str_ok _ _ _ Hf). cbn [bind].
  rewrite (render_ok imax _ _ _ _ Hp _ _ Hg (le_n _)). cbn [bind].
  assert (imax <? 0 = false) as -> by reflexivity. rewrite andb_false_r. cbn [orb].
  destruct (imax <? length t); reflexivity.
Qed.

(** The String() that vsprintf begins with. *)
Lemma empty_string_ok h : 1 < W ->
  exists h' s k, str_make_c W h (Ext [NUL]) = Done (h', s) /\ rep W h' s [] (Some k) /\
    evolves h None h' (Some k).
Proof.
  intros HW. unfold str_make_c. cbn [strlen object_size length strlen_from].
  unfold strlen. cbn [object_size length strlen_from].
  change (load_value h (Ext [NUL]) 0) with (Done NUL). cbn [bind].
  rewrite Ascii.eqb_refl. cbn [bind].
  destruct (str_make_ok W h (Ext [NUL]) 0 [] []) as (h' & s & k & E & R & V & _).
  - cbn. split; [lia|reflexivity].
  - intros i b Hi. destruct i; discriminate.
  - reflexivity.
  - assumption.
  - rewrite E. eauto 6.
Qed.

Lemma known_nth (t : bytes) i c : nth_error t i = Some c -> nth_error (known t) i = Some (Some c).
Proof. intros H. unfold known. now apply map_nth_error. Qed.

Lemma shows_known (t : bytes) : shows (known t) (map Some t).
Proof. intros i b H. exact H. Qed.

(** What a new String is. *)
Lemma rep_new_string h h' s t k :
  rep W h' s (known t) (Some k) -> evolves h None h' (Some k) -> m_size s = S (length t) ->
  new_string h h' s t.
Proof.
  intros R E Hsz. inversion R as [|l k' cs H]; subst.
  assert (m_ptr s = At k 0) as Hptr by apply (hd_ptr _ _ _ _ _ _ H).
  constructor.
  - rewrite (rep_length _ _ _ _ _ R). unfold known. apply map_length.
  - intros i c Hi. rewrite Hptr. apply (load_value_at _ _ _ _ cs); [apply (hd_live _ _ _ _ _ _ H)|].
    apply (hd_shows _ _ _ _ _ _ H). now apply known_nth.
  - rewrite Hptr. apply (load_value_at _ _ _ _ cs); [apply (hd_live _ _ _ _ _ _ H)|].
    cbn [Nat.add]. rewrite <- (map_length Some t). apply (hd_end _ _ _ _ _ _ H). lia.
  - intros b ds Hb. destruct (proj2 E _ _ Hb) as (Hl & Hn); [discriminate|].
    split; [assumption|]. rewrite Hptr. congruence.
  - intros b ds Hb. destruct (proj1 E _ _ Hb) as [Hk|(_ & Hl)]; [|left; assumption].
    right. rewrite Hptr. congruence.
  - destruct (destroy_ok W h' s _ _ R) as (h'' & Ed & V & _). exists h''. split; [assumption|].
    pose proof (evolves_trans _ _ _ _ _ _ E V) as (V1 & V2). intros b ds. split.
    + intros Hb. destruct (V1 _ _ Hb) as [|(_ & ?)]; [discriminate|assumption].
    + intros Hb. now destruct (V2 _ _ Hb).
Qed.

Lemma fill_ok h s l k cs (t : bytes) :
  holds W h s l k cs -> length l = length t -> m_size s = S (length t) ->
  holds W (set_block h k (Some (splice cs 0 (map Some (t ++ [NUL]))))) s (known t) k
        (splice cs 0 (map Some (t ++ [NUL]))).
Proof.
  intros H Hl Hs. pose proof (hd_lt _ _ _ _ _ _ H) as Hlt.
  assert (length (map (@Some byte) (t ++ [NUL])) = S (length t)) as Hd
    by (rewrite map_length, app_length; cbn; lia).
  assert (length (known t) = length t) as Hk by apply map_length.
  constructor; try apply H.
  - eapply live_set_block_eq, (hd_live _ _ _ _ _ _ H).
  - rewrite splice_length by lia. apply H.
  - rewrite splice_length by lia. apply H.
  - left. lia.
  - intros i b Hb. assert (i < length t) by (rewrite <- Hk; apply nth_error_Some; congruence).
    pose proof (splice_inside _ cs (map (@Some byte) (t ++ [NUL])) 0 i) as Hi.
    cbn [Nat.add] in Hi. rewrite Hi by lia. rewrite map_app, nth_error_app1 by (rewrite map_length; lia).
    exact Hb.
  - rewrite splice_length; lia.
  - intros _. pose proof (splice_inside _ cs (map (@Some byte) (t ++ [NUL])) 0 (length t)) as Hi.
    cbn [Nat.add] in Hi. rewrite Hk, Hi by lia.
    rewrite map_app, nth_error_app2 by (rewrite map_length; lia).
    now rewrite map_length, Nat.sub_diag.
Qed.

(** vsprintf, for texts whose length is an int. *)
Lemma vsprintf_ok h fmt f args a t :
  c_text h fmt f -> given imax h args a -> prints f a t ->
  length t <= imax -> (strict = true -> length t < imax) -> S (S imax) < W ->
  exists h' s k, vsprintf h fmt args = Done (h', s) /\ rep W h' s (known t) (Some k) /\
    evolves h None h' (Some k) /\ m_size s = S (length t).
Proof.
  intros Hf Hg Hp Ht Hstrict HW. unfold Printf.vsprintf.
  rewrite (measure_ok _ _ _ _ _ _ Hf Hg Hp).
  destruct (Nat.ltb_spec imax (length t)) as [|_]; [lia|]. cbn [bind snd fst].
  rewrite to_size_small by lia.
  destruct (empty_string_ok h) as (h0 & s0 & k0 & -> & R0 & E0); [lia|]. cbn [bind fst snd].
  destruct (resize_ok W h0 s0 [] (Some k0) (length t) R0) as (h1 & s1 & k & cs & -> & H1 & Hs1 & E1 & _);
    [lia|]. cbn [bind fst snd].
  pose proof (evolves_trans _ _ _ _ _ _ E0 E1) as E.
  pose proof (holds_length _ _ _ _ _ _ H1) as Hlen. rewrite resized_length in Hlen.
  rewrite Hlen, wadd_small by lia. rewrite Nat.add_1_r.
  unfold Printf.vsnprintf.
  rewrite (read_str_ok _ _ _ (c_text_stable _ _ _ _ _ E Hf)). cbn [bind].
  rewrite (render_ok imax _ _ _ _ Hp _ _ (given_stable _ _ _ _ _ _ E Hg) (le_n _)). cbn [bind].
  assert ((strict && (imax <? S (length t))) || (imax <? length t) = false) as ->.
  { destruct (Nat.ltb_spec imax (length t)); [lia|]. rewrite orb_false_r.
    destruct strict; [|reflexivity]. specialize (Hstrict eq_refl).
    apply Nat.ltb_ge. lia. }
  rewrite (hd_ptr _ _ _ _ _ _ H1).
  rewrite (valid_other _ _ _ _ 0 E (proj1 (proj1 Hf))), (given_other _ _ _ _ 0 _ _ E Hg). cbn [orb].
  rewrite firstn_all.
  pose proof (hd_lt _ _ _ _ _ _ H1) as Hlt. rewrite resized_length in Hlt.
  rewrite (store_n_at _ _ _ _ _ _ (hd_live _ _ _ _ _ _ H1))
    by (rewrite map_length, app_length; cbn; lia).
  cbn [bind fst snd Nat.add]. rewrite to_size_small by lia.
  destruct (Z.leb_spec 0 (Z.of_nat (length t))) as [_|]; [|lia].
  rewrite Nat.leb_refl. cbn [andb assert_ bind].
  do 3 eexists. split; [reflexivity|]. split; [|split].
  - econstructor. apply fill_ok with (l := resized [] (length t)); [assumption|apply resized_length|assumption].
  - eapply evolves_trans; [exact E|]. eapply evolves_write, (hd_live _ _ _ _ _ _ H1).
  - assumption.
Qed.

End Calls.

(** ** Adding text to an output *)
Section Output.
Variables (W imax : nat) (strict : bool).

(** The bytes of a String as a source of a copy into the String with block [o]. *)
Lemma string_source h s (t : bytes) k o :
  rep W h s (known t) (Some k) -> o <> Some k ->
  exists ds, source h o (m_ptr s) (length t) ds /\ shows (known t) ds.
Proof.
  intros R Ho. inversion R as [|l k' cs H]; subst.
  pose proof (hd_lt _ _ _ _ _ _ H) as Hlt. unfold known in Hlt. rewrite map_length in Hlt.
  exists (firstn (length t) cs). split.
  - rewrite (hd_ptr _ _ _ _ _ _ H). cbn. split; [assumption|]. exists cs.
    split; [apply (hd_live _ _ _ _ _ _ H)|]. split; [lia|reflexivity].
  - intros i b Hi. rewrite nth_error_firstn_lt; [now apply (hd_shows _ _ _ _ _ _ H)|].
    rewrite <- (map_length (@Some byte) t). apply nth_error_Some. unfold known in Hi. congruence.
Qed.

Lemma append_str_ok h out l o s t k :
  rep W h out l o -> rep W h s (known t) (Some k) -> o <> Some k ->
  S (length l + length t) < W ->
  exists h' out' k', str_append_str W h out s = Done (h', out') /\
    rep W h' out' (l ++ known t) (Some k') /\ evolves h o h' (Some k') /\
    m_size out' = S (length l + length t).
Proof.
  intros Ro Rs Ho Hf. destruct (string_source _ _ _ _ _ Rs Ho) as (ds & Hs & Hd).
  unfold str_append_str. rewrite (rep_length _ _ _ _ _ Rs). unfold known at 1. rewrite map_length.
  destruct (append_ok W h out l o (m_ptr s) (length t) ds (known t) Ro Hs Hd)
    as (h' & out' & k' & E & R & V & Z & _).
  - apply map_length.
  - assumption.
  - eauto 8.
Qed.

Lemma append_char_ok h out l o c :
  rep W h out l o -> S (length l + 1) < W ->
  exists h' out' k', str_append_char W h out c = Done (h', out') /\
    rep W h' out' (l ++ known [c]) (Some k') /\ evolves h o h' (Some k') /\
    m_size out' = S (length l + 1).
Proof.
  intros Ro Hf. unfold str_append_char.
  destruct (append_ok W h out l o (Ext [c]) 1 [Some c] (known [c]) Ro)
    as (h' & out' & k' & E & R & V & Z & _).
  - cbn. split; [lia|reflexivity].
  - intros i b Hi. exact Hi.
  - reflexivity.
  - assumption.
  - eauto 8.
Qed.

(** [o] is the block of the output, [k] that of a new String. *)
Lemma other_new (h h' : mem) k o :
  evolves h None h' (Some k) -> (forall b, o = Some b -> exists cs, live h b cs) -> o <> Some k.
Proof.
  intros E Ho X. destruct (Ho k X) as (cs & Hl).
  destruct (proj2 E _ _ Hl) as (_ & Hn); [discriminate|]. congruence.
Qed.

Lemma rep_live h s l o : rep W h s l o -> forall b, o = Some b -> exists cs, live h b cs.
Proof.
  intros [|l' k cs H]; intros b E; [discriminate|]. injection E as <-.
  exists cs. apply (hd_live _ _ _ _ _ _ H).
Qed.

Lemma log_ok h out l o s t k :
  rep W h out l o -> rep W h s (known t) (Some k) -> o <> Some k ->
  S (length l + length t) < W ->
  exists h' out' k', ctx_log W h out s = Done (h', out') /\
    rep W h' out' (l ++ known t) (Some k') /\ evolves h o h' (Some k') /\
    m_size out' = S (length l + length t).
Proof. intros. eapply append_str_ok; eassumption. Qed.

Lemma logline_ok h out l o s t k :
  rep W h out l o -> rep W h s (known t) (Some k) -> o <> Some k ->
  S (S (length l + length t)) < W ->
  exists h' out' k', ctx_logline W h out s = Done (h', out') /\
    rep W h' out' (l ++ known (t ++ [ascii_of_N 10])) (Some k') /\ evolves h o h' (Some k') /\
    m_size out' = S (length l + length (t ++ [ascii_of_N 10])).
Proof.
  intros Ro Rs Ho Hf. unfold ctx_logline.
  rewrite (rep_length _ _ _ _ _ Ro), (rep_length _ _ _ _ _ Rs). unfold known at 1. rewrite map_length.
  rewrite (wadd_small W (length l)) by lia. rewrite (wadd_small W (length l + length t)) by lia.
  destruct (reserve_ok W h out l o (length l + length t + 1) Ro)
    as (h1 & o1 & k1 & -> & R1 & _ & _ & E1 & _); [lia|]. cbn [bind fst snd].
  assert (rep W h1 s (known t) (Some k)) as Rs1.
  { eapply rep_evolves; [exact Rs|exact E1|]. intros b X. congruence. }
  assert (Some k1 <> Some k) as H1.
  { inversion Rs as [|l' k' cs Hh]; subst.
    destruct (proj2 E1 _ _ (hd_live _ _ _ _ _ _ Hh) Ho) as (_ & Hn). exact Hn. }
  destruct (append_str_ok h1 o1 l (Some k1) s t k R1 Rs1 H1) as (h2 & o2 & k2 & -> & R2 & E2 & _); [lia|].
  cbn [bind fst snd].
  destruct (append_char_ok h2 o2 (l ++ known t) (Some k2) (ascii_of_N 10) R2)
    as (h3 & o3 & k3 & -> & R3 & E3 & Z3).
  { rewrite app_length. unfold known. rewrite map_length. lia. }
  exists h3, o3, k3. split; [reflexivity|]. split; [|split].
  - unfold known in *. rewrite map_app, app_assoc. exact R3.
  - eapply evolves_trans; [exact E1|]. eapply evolves_trans; eassumption.
  - rewrite Z3, !app_length. unfold known. rewrite map_length. cbn. lia.
Qed.

(** Block [k] appears, the output is replaced, block [k] is freed. *)
Lemma evolves_temporary (h h1 h2 h3 : mem) k o o' :
  evolves h None h1 (Some k) -> evolves h1 o h2 o' -> evolves h2 (Some k) h3 None ->
  o <> Some k -> o' <> Some k ->
  (forall b, o = Some b -> exists cs, live h b cs) ->
  (forall b, o' = Some b -> exists cs, live h2 b cs) ->
  evolves h o h3 o'.
Proof.
  intros (A1 & A2) (B1 & B2) (C1 & C2) Ho Ho' Hl Hl'. split.
  - intros b cs H. destruct (C1 _ _ H) as [|(Hk & H2)]; [discriminate|].
    destruct (B1 _ _ H2) as [|(Hn & H1)]; [left; assumption|]. right. split; [assumption|].
    destruct (A1 _ _ H1) as [|(_ & H0)]; [contradiction|assumption].
  - intros b cs H Hn. destruct (A2 _ _ H) as (H1 & Hk); [discriminate|].
    destruct (B2 _ _ H1 Hn) as (H2 & Hn'). destruct (C2 _ _ H2 Hk) as (H3 & _). auto.
Qed.

Lemma statement_ok h out l o fmt f args a t u
  (add : mem -> str -> str -> outcome (mem * str)) :
  rep W h out l o ->
  c_text h fmt f -> given imax h args a -> prints f a t ->
  length t <= imax -> (strict = true -> length t < imax) -> S (S imax) < W ->
  (forall h s k, rep W h out l o -> rep W h s (known t) (Some k) -> o <> Some k ->
     exists h' out' k', add h out s = Done (h', out') /\
       rep W h' out' (l ++ known u) (Some k') /\ evolves h o h' (Some k') /\
       m_size out' = S (length l + length u)) ->
  exists h' out' k',
    (hs <- vsprintf W imax strict h fmt args ;;
     ho <- add (fst hs) out (snd hs) ;;
     h' <- str_destroy (fst ho) (snd hs) ;; Done (h', snd ho)) = Done (h', out') /\
    rep W h' out' (l ++ known u) (Some k') /\ evolves h o h' (Some k') /\
    m_size out' = S (length l + length u).
Proof.
  intros Ro Hf Hg Hp Ht Hst HW Hadd.
  destruct (vsprintf_ok W imax strict h fmt f args a t Hf Hg Hp Ht Hst HW)
    as (h1 & s & k & -> & Rs & E1 & _). cbn [bind fst snd].
  pose proof (other_new _ _ _ _ E1 (rep_live _ _ _ _ Ro)) as Hok.
  assert (rep W h1 out l o) as Ro1.
  { eapply rep_evolves; [exact Ro|exact E1|]. intros b _ X. discriminate. }
  destruct (Hadd h1 s k Ro1 Rs Hok) as (h2 & out' & k' & -> & R2 & E2 & Z2). cbn [bind fst snd].
  assert (rep W h2 s (known t) (Some k)) as Rs2.
  { eapply rep_evolves; [exact Rs|exact E2|]. intros b X. congruence. }
  destruct (destroy_ok W h2 s _ _ Rs2) as (h3 & -> & E3 & _). cbn [bind].
  assert (Some k' <> Some k) as Hkk.
  { inversion Rs as [|l' k1 cs Hh]; subst.
    destruct (proj2 E2 _ _ (hd_live _ _ _ _ _ _ Hh) Hok) as (_ & Hn). exact Hn. }
  exists h3, out', k'. split; [reflexivity|]. split; [|split].
  - eapply rep_evolves; [exact R2|exact E3|]. intros b X. congruence.
  - eapply evolves_temporary; try eassumption.
    + apply (rep_live _ _ _ _ Ro).
    + apply (rep_live _ _ _ _ R2).
  - exact Z2.
Qed.

End Output.
