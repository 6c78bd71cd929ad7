(** The messages of the library on memory have the texts of the specification. *)
From Coq Require Import Ascii String NArith ZArith QArith Bool PeanoNat Lia List.
From Verif Require Import Util Base StringConv StringConvSpec StringConvProofs SerializerSpec
  Serializer SerializerProofs ExecSpec ExecProofs FloatConv Mem MemProofs StringMem StringMemSpec StringMemProofs
  Printf PrintfSpec PrintfProofs Messages.
Import ListNotations.
Local Open Scope nat_scope.
Local Notation length := List.length.

Section MessagesProofs.
Variables (W imax : nat) (strict : bool).
Local Notation fits := (fits W imax strict).
Local Notation sprintf := (sprintf W imax strict).

(** The call returns a new String with the text [t]. *)
Definition makes (h : mem) (r : outcome (mem * str)) (t : bytes) : Prop :=
  exists h' s k, r = Done (h', s) /\ rep W h' s (known t) (Some k) /\
    evolves h None h' (Some k) /\ m_size s = S (length t).

Lemma makes_new_string h r t : makes h r t ->
  exists h' s, r = Done (h', s) /\ new_string h h' s t.
Proof.
  intros (h' & s & k & -> & R & E & Z). exists h', s. split; [reflexivity|].
  eapply rep_new_string; eassumption.
Qed.

(** ** Formats *)
Definition no_nul_b (s : bytes) : bool := forallb (fun c => negb (Ascii.eqb c NUL)) s.

Lemma no_nul_b_ok s : no_nul_b s = true -> ~ In NUL s.
Proof.
  intros H Hi. unfold no_nul_b in H. rewrite forallb_forall in H.
  specialize (H _ Hi). rewrite Ascii.eqb_refl in H. discriminate.
Qed.

Lemma points_ext h (s r : bytes) : points h (Ext (s ++ r)) s.
Proof.
  split; [reflexivity|]. intros i c Hi. unfold load_value, load.
  rewrite nth_error_app1, Hi; [reflexivity|]. apply nth_error_Some. congruence.
Qed.

Lemma c_text_ext h (s : bytes) : ~ In NUL s -> c_text h (Ext (s ++ [NUL])) s.
Proof.
  intros H. split; [|assumption]. rewrite <- (app_nil_r (s ++ [NUL])) at 1. apply points_ext.
Qed.

Definition no_percent (s : bytes) : bool := forallb (fun c => negb (Ascii.eqb c "%"%char)) s.

Lemma prints_text w f a t :
  no_percent w = true -> prints f a t -> prints (w ++ f) a (w ++ t).
Proof.
  intros H P. induction w as [|c w IH]; [exact P|]. cbn in H. apply andb_prop in H as (Hc & Hw).
  cbn. constructor; [|auto]. intros ->. discriminate.
Qed.

Lemma prints_only w a : no_percent w = true -> prints w a w.
Proof.
  intros H. rewrite <- (app_nil_r w) at 1. rewrite <- (app_nil_r w) at 2.
  apply prints_text; [assumption|constructor].
Qed.

Lemma site_ok h f args a t :
  no_nul_b (lit f) = true -> given imax h args a -> prints (lit f) a t -> fits (length t) ->
  makes h (sprintf h (cstring f) args) t.
Proof.
  intros Hn Hg Hp (F1 & F2 & F3).
  apply (vsprintf_ok W imax strict h (cstring f) (lit f) args a t); try assumption.
  unfold cstring. apply c_text_ext. now apply no_nul_b_ok.
Qed.

Lemma view_args_ok h v s : view_shows h v s ->
  view_args imax v = Done [VInt CInt (to_int imax (length s)); VPtr (v_str v)].
Proof.
  intros ((Hv & _) & Hl). unfold view_args, view_data.
  destruct (v_str v); [discriminate| |]; cbn [assert_ bind]; now rewrite Hl.
Qed.

Lemma view_shows_stable h h' k v s :
  evolves h None h' k -> view_shows h v s -> view_shows h' v s.
Proof. intros E (H & Hl). split; [eapply points_stable; eassumption|assumption]. Qed.

(** ** Single calls *)
Lemma unknown_ok h name s t :
  view_shows h name s -> length s <= imax -> unknown_message s t -> fits (length t) ->
  makes h (msg_unknown W imax strict h name) t.
Proof.
  intros Hv Hl (u & Hu & ->) Hf. unfold msg_unknown. rewrite (view_args_ok _ _ _ Hv). cbn [bind].
  apply site_ok with (a := [SView s]); [reflexivity| | |assumption].
  - constructor; [apply Hv|assumption|constructor].
  - change (prints (lit "No function '" ++ lit "%.*s" ++ lit "' is registered") [SView s]
                   (lit "No function '" ++ u ++ lit "' is registered")).
    apply prints_text; [reflexivity|]. constructor; [assumption|]. now apply prints_only.
Qed.

Lemma missing_ok h key s t :
  view_shows h key s -> length s <= imax -> missing_message s t -> fits (length t) ->
  makes h (msg_missing W imax strict h key) t.
Proof.
  intros Hv Hl (u & Hu & ->) Hf. unfold msg_missing. rewrite (view_args_ok _ _ _ Hv). cbn [bind].
  apply site_ok with (a := [SView s]); [reflexivity| | |assumption].
  - constructor; [apply Hv|assumption|constructor].
  - change (prints (lit "Missing named argument '" ++ lit "%.*s" ++ lit "'") [SView s]
                   (lit "Missing named argument '" ++ u ++ lit "'")).
    apply prints_text; [reflexivity|]. constructor; [assumption|]. now apply prints_only.
Qed.

Lemma exception_ok h p s :
  c_text h p s -> fits (length (lit "Exception caught during execution: " ++ s)) ->
  makes h (msg_exception W imax strict h p) (lit "Exception caught during execution: " ++ s).
Proof.
  intros Hp Hf. unfold msg_exception.
  apply site_ok with (a := [SStr s]); [reflexivity| | |assumption].
  - constructor; [assumption|constructor].
  - change (prints (lit "Exception caught during execution: " ++ lit "%s" ++ []) [SStr s]
                   (lit "Exception caught during execution: " ++ s)).
    rewrite <- (app_nil_r s) at 2.
    apply prints_text; [reflexivity|]. constructor. constructor.
Qed.

Lemma first_token_ok h v s u t :
  view_shows h v s -> length s <= imax -> before_nul s u ->
  t = lit "Unexpected token '" ++ u ++ lit "' at the beginning of the expression" ->
  fits (length t) -> makes h (msg_first_token W imax strict h v) t.
Proof.
  intros Hv Hl Hu -> Hf. unfold msg_first_token. rewrite (view_args_ok _ _ _ Hv). cbn [bind].
  apply site_ok with (a := [SView s]); [reflexivity| | |assumption].
  - constructor; [apply Hv|assumption|constructor].
  - change (prints (lit "Unexpected token '" ++ lit "%.*s" ++ lit "' at the beginning of the expression")
                   [SView s]
                   (lit "Unexpected token '" ++ u ++ lit "' at the beginning of the expression")).
    apply prints_text; [reflexivity|]. constructor; [assumption|]. now apply prints_only.
Qed.

Lemma open_quote_ok sg h c t :
  t = lit "Token '" ++ c :: lit "' doesn't have a corresponding opening/closing quote" ->
  fits (length t) -> makes h (msg_open_quote W imax strict sg h c) t.
Proof.
  intros -> Hf. unfold msg_open_quote.
  apply site_ok with (a := [SChar c]); [reflexivity| | |assumption].
  - constructor. constructor.
  - change (prints (lit "Token '" ++ lit "%c" ++ lit "' doesn't have a corresponding opening/closing quote")
                   [SChar c]
                   (lit "Token '" ++ c :: lit "' doesn't have a corresponding opening/closing quote")).
    apply prints_text; [reflexivity|]. constructor. now apply prints_only.
Qed.

Lemma open_group_ok sg h c t :
  t = lit "Token '" ++ c :: lit "' doesn't have a corresponding opening/closing token" ->
  fits (length t) -> makes h (msg_open_group W imax strict sg h c) t.
Proof.
  intros -> Hf. unfold msg_open_group.
  apply site_ok with (a := [SChar c]); [reflexivity| | |assumption].
  - constructor. constructor.
  - change (prints (lit "Token '" ++ lit "%c" ++ lit "' doesn't have a corresponding opening/closing token")
                   [SChar c]
                   (lit "Token '" ++ c :: lit "' doesn't have a corresponding opening/closing token")).
    apply prints_text; [reflexivity|]. constructor. now apply prints_only.
Qed.

(** ** Numbers *)
Lemma number_ok h f ty v d :
  no_nul_b (lit f) = true -> int_conv ty (lit f) -> (is_unsigned ty = true -> 0 <= v)%Z ->
  canonical v d -> fits (length d) -> makes h (sprintf h (cstring f) [VInt ty v]) d.
Proof.
  intros Hn Hc Hu Hd Hf. apply site_ok with (a := [SInt ty v]); [assumption| | |assumption].
  - constructor; [assumption|constructor].
  - rewrite <- (app_nil_r (lit f)), <- (app_nil_r d). econstructor; [eassumption|assumption|constructor].
Qed.

Lemma toString_ok h t v d :
  (is_unsigned t = true -> 0 <= v)%Z -> canonical v d -> fits (length d) ->
  makes h (toString_mem W imax strict h t v) d.
Proof.
  intros Hu Hd Hf.
  destruct t; cbn [toString_mem]; apply number_ok; try assumption; try reflexivity; try constructor;
    try discriminate.
Qed.

Lemma float_ok h f (long : bool) v :
  f = (if long then "%Lg" else "%g")%string -> fits (length (printf_g v)) ->
  makes h (sprintf h (cstring f) [if long then VLongDouble v else VDouble v]) (printf_g v).
Proof.
  intros -> Hf.
  apply site_ok with (a := [if long then SLongDouble v else SDouble v]);
    [now destruct long| | |assumption].
  - destruct long; repeat constructor.
  - rewrite <- (app_nil_r (printf_g v)).
    destruct long; [apply (prints_Lg v [] [] [])|apply (prints_g v [] [] [])]; constructor.
Qed.

Lemma literal_ok h s : ~ In NUL (lit s) -> S (length (lit s)) < W ->
  makes h (str_make_c W h (cstring s)) (lit s).
Proof.
  intros Hn Hf. unfold str_make_c, cstring.
  rewrite (strlen_ext h (lit s ++ [NUL]) (lit s)) by (exists []; auto). cbn [bind].
  destruct (str_make_ok W h (Ext (lit s ++ [NUL])) (length (lit s)) (map Some (lit s)) (known (lit s)))
    as (h' & x & k & -> & R & E & Z & _).
  - cbn. split; [rewrite app_length; lia|]. now rewrite firstn_length_app.
  - intros i b Hi. exact Hi.
  - apply map_length.
  - assumption.
  - exists h', x, k. auto.
Qed.

Lemma toStringF_ok h long v : fits (length (toStringF v)) -> 2 < W ->
  makes h (toStringF_mem W imax strict h long v) (toStringF v).
Proof.
  intros Hf HW. unfold toStringF_mem, toStringF in *.
  assert (forall x, fits (length (printf_g x)) ->
    makes h (if long then sprintf h (cstring "%Lg") [VLongDouble x]
             else sprintf h (cstring "%g") [VDouble x]) (printf_g x)) as G.
  { intros x Hx. destruct long; [apply (float_ok h _ true)|apply (float_ok h _ false)]; auto. }
  destruct v as [neg m e|neg|neg]; [|apply G, Hf|apply G, Hf].
  destruct (_ && _) eqn:Z in Hf |- *; [|apply G, Hf].
  apply literal_ok; [|assumption]. cbn. intros [X|[]]. discriminate.
Qed.

(** ** Appending views and C strings to a new String *)
Lemma points_source (h : mem) p (s : bytes) o : points h p s ->
  (forall b off, p = At b off -> o <> Some b) ->
  exists ds, source h o p (length s) ds /\ shows (known s) ds.
Proof.
  intros (Hv & Hp) Ho. destruct p as [|b off|l]; [discriminate| |].
  - cbn in Hv. unfold find_block in Hv.
    destruct (nth_error (blocks h) b) as [[cs|]|] eqn:Hb; cbn in Hv; try discriminate.
    destruct (off <=? length cs) eqn:Hoff; [|discriminate]. apply Nat.leb_le in Hoff.
    assert (forall i c, nth_error s i = Some c -> nth_error cs (off + i) = Some (Some c)) as Hc.
    { intros i c Hi. specialize (Hp i c Hi). unfold load_value, load, find_block in Hp.
      rewrite Hb in Hp. cbn [bind] in Hp. destruct (nth_error cs (off + i)) as [[x|]|]; cbn in Hp;
        congruence. }
    assert (off + length s <= length cs) as Hle.
    { destruct s as [|c s] using rev_ind; [cbn; lia|]. rewrite app_length. cbn.
      specialize (Hc (length s) c). rewrite nth_error_app2, Nat.sub_diag in Hc by lia.
      specialize (Hc eq_refl). assert (off + length s < length cs) by (apply nth_error_Some; congruence).
      lia. }
    exists (firstn (length s) (skipn off cs)). split.
    + split; [eapply Ho; reflexivity|]. exists cs. auto.
    + intros i c Hi. unfold known in Hi. rewrite nth_error_map in Hi.
      destruct (nth_error s i) as [d|] eqn:Hs; cbn in Hi; [|discriminate]. injection Hi as ->.
      rewrite nth_error_firstn_lt by (apply nth_error_Some; congruence).
      rewrite nth_error_skipn_add. now apply Hc.
  - exists (map Some (firstn (length s) l)).
    assert (forall i c, nth_error s i = Some c -> nth_error l i = Some c) as Hc.
    { intros i c Hi. specialize (Hp i c Hi). unfold load_value, load in Hp.
      destruct (nth_error l i); cbn in Hp; congruence. }
    assert (length s <= length l) as Hle.
    { destruct s as [|c s] using rev_ind; [cbn; lia|]. rewrite app_length. cbn.
      specialize (Hc (length s) c). rewrite nth_error_app2, Nat.sub_diag in Hc by lia.
      specialize (Hc eq_refl). assert (length s < length l) by (apply nth_error_Some; congruence).
      lia. }
    split; [split; [assumption|reflexivity]|].
    intros i c Hi. unfold known in Hi. rewrite nth_error_map in Hi.
    destruct (nth_error s i) as [d|] eqn:Hs; cbn in Hi; [|discriminate]. injection Hi as ->.
    rewrite nth_error_map, nth_error_firstn_lt by (apply nth_error_Some; congruence).
    now rewrite (Hc _ _ Hs).
Qed.

(** A String that has been made since [h] began, with the text [t]. *)
Definition has (h h' : mem) (s : str) (t : bytes) (k : nat) : Prop :=
  rep W h' s (known t) (Some k) /\ evolves h None h' (Some k) /\ m_size s = S (length t).

Lemma has_append h h' s t k p u :
  has h h' s t k -> points h p u -> S (length t + length u) < W ->
  exists h2 s2 k2, str_append W h' s p (length u) = Done (h2, s2) /\ has h h2 s2 (t ++ u) k2.
Proof.
  intros (R & E & Z) Hp Hf.
  destruct (points_source h' p u (Some k)) as (ds & Hs & Hd).
  - eapply points_stable; eassumption.
  - intros b off -> X. injection X as ->.
    pose proof (valid_other _ _ _ _ 0 E (proj1 Hp)) as Hb. cbn in Hb.
    now rewrite Nat.eqb_refl in Hb.
  - destruct (append_ok W h' s (known t) (Some k) p (length u) ds (known u) R Hs Hd)
      as (h2 & s2 & k2 & Ea & R2 & E2 & Z2 & _).
    + apply map_length.
    + unfold known. rewrite map_length. assumption.
    + exists h2, s2, k2. split; [assumption|]. split; [|split].
      * unfold known in *. now rewrite map_app.
      * eapply evolves_trans; eassumption.
      * rewrite Z2, app_length. unfold known. now rewrite map_length.
Qed.

Lemma append_view_ok h h' s t k v u :
  has h h' s t k -> view_shows h v u -> S (length t + length u) < W ->
  exists h2 s2 k2, str_append_view W h' s v = Done (h2, s2) /\ has h h2 s2 (t ++ u) k2.
Proof.
  intros H (Hp & Hl) Hf. unfold str_append_view, view_data.
  assert (assert_ match v_str v with Null => false | _ => true end = Done tt) as ->.
  { destruct (v_str v); [|reflexivity|reflexivity]. destruct Hp as (X & _). discriminate. }
  cbn [bind]. rewrite Hl. eapply has_append; eassumption.
Qed.

Lemma append_c_ok h h' s t k (u : string) :
  has h h' s t k -> ~ In NUL (lit u) -> S (length t + length (lit u)) < W ->
  exists h2 s2 k2, str_append_c W h' s (cstring u) = Done (h2, s2) /\ has h h2 s2 (t ++ lit u) k2.
Proof.
  intros H Hn Hf. unfold str_append_c, cstring.
  rewrite (strlen_ext h' (lit u ++ [NUL]) (lit u)) by (exists []; auto). cbn [bind].
  eapply has_append; [eassumption|apply points_ext|assumption].
Qed.

(** ** Value::str *)
Lemma loop_length l : forall acc p, length acc + length (concat l) <= length (str_loop acc p l).
Proof.
  induction l as [|x l IH]; intros acc p; cbn [str_loop concat]; [cbn; lia|].
  specialize (IH ((acc ++ p) ++ x) (lit " ")). rewrite !app_length in *. lia.
Qed.

Lemma loop_grows l : forall acc p, length acc <= length (str_loop acc p l).
Proof. intros acc p. pose proof (loop_length l acc p). lia. Qed.

Lemma value_loop_ok h : forall subs texts h' s t k prefix ptext,
  Forall2 (view_shows h) subs texts -> has h h' s t k -> view_shows h prefix ptext ->
  S (length (str_loop t ptext texts)) < W ->
  exists h2 s2 k2, value_loop W h' s prefix subs = Done (h2, s2) /\
                   has h h2 s2 (str_loop t ptext texts) k2.
Proof.
  induction subs as [|v subs IH]; intros texts h' s t k prefix ptext Hs H Hp Hf;
    inversion Hs as [|? x ? texts' Hv Hr]; subst.
  - exists h', s, k. auto.
  - cbn [value_loop str_loop] in *.
    pose proof (loop_grows texts' ((t ++ ptext) ++ x) (lit " ")) as Hg.
    rewrite !app_length in Hg.
    destruct (append_view_ok _ _ _ _ _ _ _ H Hp) as (h2 & s2 & k2 & -> & H2); [lia|].
    cbn [bind fst snd].
    destruct (append_view_ok _ _ _ _ _ _ _ H2 Hv) as (h3 & s3 & k3 & -> & H3);
      [rewrite app_length; lia|].
    cbn [bind fst snd]. eapply IH; [eassumption|eassumption| |assumption].
    split; [apply (points_ext h (lit " ") [NUL])|reflexivity].
Qed.

Lemma makes_has h r t : makes h r t -> exists h' s k, r = Done (h', s) /\ has h h' s t k.
Proof. intros (h' & s & k & -> & R & E & Z). exists h', s, k. split; [reflexivity|]. split; auto. Qed.

Lemma has_makes h h' s t k : has h h' s t k -> makes h (Done (h', s)) t.
Proof. intros (R & E & Z). exists h', s, k. auto. Qed.

Lemma value_str_ok h subs texts :
  Forall2 (view_shows h) subs texts -> S (length (value_str texts)) < W -> 1 < W ->
  makes h (value_str_mem W h subs) (value_str texts).
Proof.
  intros Hs Hf HW. unfold value_str_mem.
  destruct (makes_has _ _ _ (literal_ok h "" (fun x => x) HW)) as (h1 & s1 & k1 & -> & H1).
  cbn [bind fst snd].
  destruct (value_loop_ok h subs texts h1 s1 (lit "") k1 (View (cstring "") 0) (lit "") Hs H1)
    as (h2 & s2 & k2 & -> & H2).
  - split; [apply (points_ext h (lit "") [NUL])|reflexivity].
  - assumption.
  - eapply has_makes, H2.
Qed.

(** ** Temporary Strings *)

(** The C string of a String: the bytes before the first NUL. *)
Lemma string_c_text h h' s t k u : has h h' s t k -> before_nul t u -> c_text h' (m_ptr s) u.
Proof.
  intros (R & E & Z) B. pose proof (rep_new_string W _ _ _ _ _ R E Z) as N.
  assert (valid h' (m_ptr s) = Done tt) as Hv.
  { inversion R as [|l k' cs H]; subst. rewrite (hd_ptr _ _ _ _ _ _ H). cbn.
    rewrite (find_block_live _ _ _ (hd_live _ _ _ _ _ _ H)). cbn.
    destruct (length cs); reflexivity. }
  destruct B as [t Hn|u r Hn].
  - split; [|exact Hn]. split; [assumption|]. intros i c Hi.
    destruct (Nat.lt_ge_cases i (length t)) as [Hl|Hl].
    + rewrite nth_error_app1 in Hi by assumption. now apply (ns_bytes _ _ _ _ N).
    + rewrite nth_error_app2 in Hi by assumption.
      destruct (i - length t) as [|j] eqn:Ej; cbn in Hi; [|destruct j; discriminate].
      injection Hi as <-. replace i with (length t) by lia. apply (ns_end _ _ _ _ N).
  - split; [|exact Hn]. split; [assumption|]. intros i c Hi. apply (ns_bytes _ _ _ _ N).
    replace (u ++ ascii_of_nat 0 :: r) with ((u ++ [NUL]) ++ r) by (rewrite <- app_assoc; reflexivity).
    rewrite nth_error_app1; [assumption|]. apply nth_error_Some. congruence.
Qed.

Lemma string_view_shows h h' s t k : has h h' s t k ->
  exists v, str_view s = Done v /\ view_shows h' v t.
Proof.
  intros (R & E & Z). pose proof (rep_new_string W _ _ _ _ _ R E Z) as N.
  inversion R as [|l k' cs H]; subst. exists (View (m_ptr s) (str_length s)). split.
  - unfold str_view, view_make. rewrite (hd_ptr _ _ _ _ _ _ H). reflexivity.
  - split; [|apply (ns_length _ _ _ _ N)]. split; [|apply (ns_bytes _ _ _ _ N)].
    cbn [v_str]. rewrite (hd_ptr _ _ _ _ _ _ H). cbn.
    rewrite (find_block_live _ _ _ (hd_live _ _ _ _ _ _ H)). cbn.
    destruct (length cs); reflexivity.
Qed.

(** A String made while a temporary [s] exists, after the temporary is gone. *)
Lemma drop_temporary h h1 s t k r u :
  has h h1 s t k -> makes h1 r u ->
  makes h (he <- r ;; h' <- str_destroy (fst he) s ;; Done (h', snd he)) u.
Proof.
  intros (R & E & Z) (h2 & x & k2 & -> & R2 & E2 & Z2). cbn [bind fst snd].
  assert (rep W h2 s (known t) (Some k)) as Rs.
  { eapply rep_evolves; [exact R|exact E2|]. intros b _ X. discriminate. }
  destruct (destroy_ok W h2 s _ _ Rs) as (h3 & -> & E3 & _). cbn [bind].
  assert (Some k2 <> Some k) as Hk.
  { inversion R as [|l k' cs H]; subst.
    destruct (proj2 E2 _ _ (hd_live _ _ _ _ _ _ H)) as (_ & Hn); [discriminate|exact Hn]. }
  exists h3, x, k2. split; [reflexivity|]. split; [|split; [|assumption]].
  - eapply rep_evolves; [exact R2|exact E3|]. intros b X. congruence.
  - eapply evolves_temporary; try eassumption; try discriminate.
    apply (rep_live _ _ _ _ _ R2).
Qed.

(** ** createGenericError *)
Lemma generic_ok h ty tn input texts details d u n w e :
  view_shows h ty tn -> Forall2 (view_shows h) input texts -> view_shows h details d ->
  length tn <= imax -> length d <= imax -> S (length (value_str texts)) < W ->
  before_nul (value_str texts) u -> before_nul tn n -> before_nul d w ->
  e = lit "Unable to convert '" ++ u ++ lit "' to type '" ++ n ++ lit "'" ++
      (match d with [] => [] | _ => lit ": " ++ w end) ->
  fits (length e) -> makes h (generic_error_mem W imax strict h ty input details) e.
Proof.
  intros Ht Hi Hd Htl Hdl Hfit Hu Hn Hw He Hf. unfold generic_error_mem.
  destruct (makes_has _ _ _ (value_str_ok h input texts Hi Hfit ltac:(lia))) as (h1 & s & k & -> & H1).
  cbn [bind fst snd].
  pose proof (string_c_text _ _ _ _ _ _ H1 Hu) as Hc.
  pose proof (proj1 (proj2 H1)) as E1.
  pose proof (view_shows_stable _ _ _ _ _ E1 Ht) as Ht1.
  pose proof (view_shows_stable _ _ _ _ _ E1 Hd) as Hd1.
  eapply drop_temporary; [exact H1|].
  rewrite (view_args_ok _ _ _ Ht1), (view_args_ok _ _ _ Hd1). cbn [bind app].
  rewrite (proj2 Hd). destruct d as [|c d].
  - cbn [length Nat.eqb]. rewrite app_nil_r in He. subst e.
    apply site_ok with (a := [SStr u; SView tn]); [reflexivity| | |assumption].
    + constructor; [assumption|]. constructor; [apply Ht1|assumption|constructor].
    + change (prints (lit "Unable to convert '" ++ lit "%s" ++ lit "' to type '" ++ lit "%.*s" ++ lit "'")
                     [SStr u; SView tn]
                     (lit "Unable to convert '" ++ u ++ lit "' to type '" ++ n ++ lit "'")).
      apply prints_text; [reflexivity|]. constructor. apply prints_text; [reflexivity|].
      constructor; [assumption|]. now apply prints_only.
  - change (length (c :: d) =? 0) with false. cbv iota. subst e.
    apply site_ok with (a := [SStr u; SView tn; SView (c :: d)]); [reflexivity| | |assumption].
    + constructor; [assumption|]. constructor; [apply Ht1|assumption|].
      constructor; [apply Hd1|assumption|constructor].
    + change (prints (lit "Unable to convert '" ++ lit "%s" ++ lit "' to type '" ++ lit "%.*s" ++
                      lit "': " ++ lit "%.*s" ++ [])
                     [SStr u; SView tn; SView (c :: d)]
                     (lit "Unable to convert '" ++ u ++ lit "' to type '" ++ n ++ lit "': " ++ w)).
      apply prints_text; [reflexivity|]. constructor. apply prints_text; [reflexivity|].
      constructor; [assumption|]. apply prints_text; [reflexivity|].
      rewrite <- (app_nil_r w). constructor; [assumption|constructor].
Qed.

(** ** createMismatchedSubvaluesError *)
Lemma no_nul_before s : no_nul s -> before_nul s s.
Proof. intros H. now constructor. Qed.

Lemma mismatch_ok h ty tn input texts x d u n e :
  view_shows h ty tn -> Forall2 (view_shows h) input texts ->
  length tn <= imax -> S (length (value_str texts)) < W ->
  before_nul (value_str texts) u -> before_nul tn n -> mismatch_detail x (length texts) d ->
  e = lit "Unable to convert '" ++ u ++ lit "' to type '" ++ n ++ lit "': " ++ d ->
  fits (length e) -> makes h (mismatch_error_mem W imax strict h ty input x) e.
Proof.
  intros Ht Hi Htl Hfit Hu Hn Hd He Hf. unfold mismatch_error_mem.
  assert (length d <= length e) as Hde by (rewrite He, !app_length; lia).
  assert (fits (length d)) as Fd.
  { destruct Hf as (F1 & F2 & F3). split; [lia|]. split; [|assumption]. intros X.
    specialize (F2 X). lia. }
  assert (length texts = length input) as Hli by (clear - Hi; induction Hi; cbn; congruence).
  rewrite <- Hli.
  assert (no_nul d /\ d <> []) as (Hdn & Hde0).
  { destruct Hd as [a b Ha Hb]. split; [|discriminate].
    rewrite (canonical_zu _ _ Ha), (canonical_zu _ _ Hb).
    repeat apply no_nul_app; try apply printf_zu_no_nul; now apply no_nul_lit. }
  assert (makes h (sprintf h (cstring "Expected %zu subvalues, got %zu")
                           [VSize x; VSize (length texts)]) d) as M.
  { destruct Hd as [a b Ha Hb].
    apply site_ok with (a := [SSize x; SSize (length texts)]); [reflexivity| | |assumption].
    - repeat constructor.
    - change (prints (lit "Expected " ++ lit "%zu" ++ lit " subvalues, got " ++ lit "%zu" ++ [])
                     [SSize x; SSize (length texts)]
                     (lit "Expected " ++ a ++ lit " subvalues, got " ++ b)).
      apply prints_text; [reflexivity|]. constructor; [assumption|].
      apply prints_text; [reflexivity|]. rewrite <- (app_nil_r b). constructor; [assumption|constructor]. }
  destruct (makes_has _ _ _ M) as (h1 & s & k & -> & H1). cbn [bind fst snd].
  destruct (string_view_shows _ _ _ _ _ H1) as (v & -> & Hv). cbn [bind].
  pose proof (proj1 (proj2 H1)) as E1.
  eapply drop_temporary; [exact H1|].
  eapply generic_ok; try eassumption.
  - eapply view_shows_stable; eassumption.
  - clear - E1 Hi. induction Hi; constructor; [eapply view_shows_stable; eassumption|assumption].
  - destruct Fd. lia.
  - apply no_nul_before, Hdn.
  - rewrite He. destruct d; [contradiction|]. reflexivity.
Qed.

(** ** The wrong number of arguments *)
(** [s] += the String made by [r], a temporary. *)
Lemma append_temporary h h1 s t k r u :
  has h h1 s t k -> makes h1 r u -> S (length t + length u) < W ->
  exists h3 s3 k3,
    (ht <- r ;; ho <- str_append_str W (fst ht) s (snd ht) ;;
     h' <- str_destroy (fst ho) (snd ht) ;; Done (h', snd ho)) = Done (h3, s3) /\
    has h h3 s3 (t ++ u) k3.
Proof.
  intros (R & E & Z) (h2 & y & k2 & -> & Ry & Ey & Zy) Hf. cbn [bind fst snd].
  pose proof (other_new _ _ _ _ Ey (rep_live _ _ _ _ _ R)) as Hk.
  assert (rep W h2 s (known t) (Some k)) as R2.
  { eapply rep_evolves; [exact R|exact Ey|]. intros b _ X. discriminate. }
  destruct (append_str_ok W h2 s (known t) (Some k) y u k2 R2 Ry Hk) as (h3 & s3 & k3 & -> & R3 & E3 & Z3).
  { unfold known. rewrite map_length. assumption. }
  cbn [bind fst snd].
  assert (rep W h3 y (known u) (Some k2)) as Ry3.
  { eapply rep_evolves; [exact Ry|exact E3|]. intros b X. congruence. }
  destruct (destroy_ok W h3 y _ _ Ry3) as (h4 & -> & E4 & _). cbn [bind].
  assert (Some k3 <> Some k2) as Hkk.
  { inversion Ry as [|l' k1 cs Hh]; subst.
    destruct (proj2 E3 _ _ (hd_live _ _ _ _ _ _ Hh) Hk) as (_ & Hn). exact Hn. }
  exists h4, s3, k3. split; [reflexivity|]. split; [|split].
  - unfold known in *. rewrite map_app. eapply rep_evolves; [exact R3|exact E4|]. intros b X. congruence.
  - eapply evolves_trans; [exact E|]. eapply evolves_temporary; try eassumption.
    + apply (rep_live _ _ _ _ _ R).
    + apply (rep_live _ _ _ _ _ R3).
  - rewrite Z3, app_length. unfold known. now rewrite map_length.
Qed.

(** The loop, at the value level. *)
Fixpoint arity_loop (i n : nat) (acc : bytes) (l : list nat) : bytes :=
  match l with
  | [] => acc
  | a :: r =>
      let acc := if (0 <? i) && negb (i =? n - 1) then acc ++ lit ", " else acc in
      let acc := if (0 <? i) && (i =? n - 1) then acc ++ lit " or " else acc in
      arity_loop (S i) n (acc ++ printf_zu a) r
  end.

Lemma arity_loop_grows : forall l i n acc, length acc <= length (arity_loop i n acc l).
Proof.
  induction l as [|a l IH]; intros i n acc; cbn [arity_loop]; [lia|].
  etransitivity; [|apply IH]. destruct (_ && negb _), (_ && _); rewrite ?app_length; lia.
Qed.

Lemma arity_loop_tail : forall l i acc, 0 < i ->
  arity_loop i (i + length l) acc l = acc ++ enum_tail l.
Proof.
  induction l as [|a l IH]; intros i acc Hi; [cbn; now rewrite app_nil_r|].
  cbn [arity_loop]. cbn [length]. destruct (Nat.ltb_spec 0 i) as [_|]; [|lia]. cbn [andb].
  destruct l as [|b l].
  - cbn [length]. replace (i + 1 - 1) with i by lia. rewrite Nat.eqb_refl. cbn [negb arity_loop enum_tail].
    now rewrite app_assoc.
  - destruct (Nat.eqb_spec i (i + S (length (b :: l)) - 1)) as [X|_]; [cbn in X; lia|]. cbn [negb].
    rewrite <- Nat.add_succ_comm. rewrite IH by lia.
    change (enum_tail (a :: b :: l)) with (lit ", " ++ printf_zu a ++ enum_tail (b :: l)).
    now rewrite <- !app_assoc.
Qed.

Lemma arity_loop_text l : arity_loop 0 (length l) [] l = enum_text l.
Proof.
  destruct l as [|a l]; [reflexivity|]. cbn [arity_loop length Nat.ltb Nat.leb andb].
  change (S (length l)) with (1 + length l). rewrite arity_loop_tail by lia. reflexivity.
Qed.

Lemma printf_zu_fits n m : length (printf_zu n) <= m -> fits m -> fits (length (printf_zu n)).
Proof.
  intros H (F1 & F2 & F3). split; [lia|]. split; [|assumption]. intros X. specialize (F2 X). lia.
Qed.

Lemma expected_loop_ok h n : forall arities i h' s t k,
  has h h' s t k -> fits (length (arity_loop i n t arities)) ->
  exists h2 s2 k2, expected_loop_mem W imax strict h' s i n arities = Done (h2, s2) /\
                   has h h2 s2 (arity_loop i n t arities) k2.
Proof.
  induction arities as [|a r IH]; intros i h' s t k H Hf; [exists h', s, k; auto|].
  cbn [expected_loop_mem arity_loop] in *.
  set (acc1 := if (0 <? i) && negb (i =? n - 1) then t ++ lit ", " else t) in *.
  set (acc2 := if (0 <? i) && (i =? n - 1) then acc1 ++ lit " or " else acc1) in *.
  pose proof (arity_loop_grows r (S i) n (acc2 ++ printf_zu a)) as Hg. rewrite app_length in Hg.
  assert (length acc1 <= length acc2) as Hg1
    by (unfold acc2; destruct (_ && (i =? n - 1)); rewrite ?app_length; lia).
  destruct Hf as (F1 & F2 & F3).
  assert (exists h1 s1 k1,
    (if (0 <? i) && negb (i =? n - 1) then str_append_c W h' s (cstring ", ") else Done (h', s))
      = Done (h1, s1) /\ has h h1 s1 acc1 k1) as (h1 & s1 & k1 & -> & H1).
  { unfold acc1 in *. destruct (_ && negb _); [|exists h', s, k; auto].
    eapply append_c_ok; [eassumption|apply no_nul_b_ok; reflexivity|].
    rewrite app_length in Hg1. lia. }
  cbn [bind fst snd].
  assert (exists h2 s2 k2,
    (if (0 <? i) && (i =? n - 1) then str_append_c W h1 s1 (cstring " or ") else Done (h1, s1))
      = Done (h2, s2) /\ has h h2 s2 acc2 k2) as (h2 & s2 & k2 & -> & H2).
  { unfold acc2 in *. destruct (_ && (i =? n - 1)); [|exists h1, s1, k1; auto].
    eapply append_c_ok; [eassumption|apply no_nul_b_ok; reflexivity|].
    rewrite app_length in Hg. lia. }
  cbn [bind fst snd].
  assert (makes h2 (toString_mem W imax strict h2 CULong (Z.of_nat a)) (printf_zu a)) as M.
  { apply toString_ok; [lia|apply printf_zu_canonical|].
    eapply printf_zu_fits; [|split; [exact F1|split; [exact F2|exact F3]]]. lia. }
  destruct (append_temporary _ _ _ _ _ _ _ H2 M) as (h3 & s3 & k3 & Eq & H3); [lia|].
  destruct M as (ht & y & ky & Ey & _). rewrite Ey in Eq |- *. cbn [bind fst snd] in Eq |- *.
  destruct (str_append_str W ht s2 y) as [[ho so]|] eqn:Ea; cbn [bind fst snd] in Eq |- *; [|discriminate].
  destruct (str_destroy ho y) as [hd|] eqn:Ed; cbn [bind fst snd] in Eq |- *; [|discriminate].
  injection Eq as -> ->. apply IH with (k := k3); [assumption|]. split; [assumption|]. auto.
Qed.

Lemma has_reserve h h' s t k n : has h h' s t k -> S n < W ->
  exists h2 s2 k2, str_reserve W h' s n = Done (h2, s2) /\ has h h2 s2 t k2.
Proof.
  intros (R & E & Z) Hn. destruct (reserve_ok W h' s _ _ n R Hn) as (h2 & s2 & k2 & -> & R2 & _ & Z2 & E2 & _).
  exists h2, s2, k2. split; [reflexivity|]. split; [assumption|]. split; [|congruence].
  eapply evolves_trans; eassumption.
Qed.

Lemma arity_ok h name nm arities got e :
  view_shows h name nm -> length nm <= imax -> S (length arities * 3) < W ->
  arity_message nm arities got e -> fits (length e) ->
  makes h (msg_arity W imax strict h name arities got) e.
Proof.
  intros Hv Hl H3 (u & li & g & Hu & Hli & Hg & He) Hf. unfold msg_arity.
  apply enumeration_det in Hli.
  assert (fits (length li)) as Fl.
  { destruct Hf as (F1 & F2 & F3). assert (length li <= length e) by (rewrite He, !app_length; lia).
    split; [lia|]. split; [|assumption]. intros X. specialize (F2 X). lia. }
  assert (1 < W) as HW by lia.
  destruct (makes_has _ _ _ (literal_ok h "" (fun x => x) HW)) as (h1 & s1 & k1 & -> & H1).
  cbn [bind fst snd].
  assert (wmul W (length arities) 3 = length arities * 3) as ->.
  { unfold wmul. apply Nat.mod_small. lia. }
  destruct (has_reserve _ _ _ _ _ _ H1 H3) as (h2 & s2 & k2 & -> & H2). cbn [bind fst snd].
  rewrite <- arity_loop_text in Hli.
  destruct (expected_loop_ok h (length arities) arities 0 h2 s2 _ k2 H2) as (h4 & s4 & k4 & -> & H4).
  { change (lit "") with (@nil byte). rewrite <- Hli. assumption. }
  cbn [bind fst snd]. change (lit "") with (@nil byte) in H4. rewrite <- Hli in H4.
  assert (no_nul li) as Hn by (rewrite Hli, arity_loop_text; apply enum_text_no_nul).
  pose proof (string_c_text _ _ _ _ _ _ H4 (no_nul_before _ Hn)) as Hc.
  pose proof (proj1 (proj2 H4)) as E4.
  pose proof (view_shows_stable _ _ _ _ _ E4 Hv) as Hv4.
  rewrite (view_args_ok _ _ _ Hv4). cbn [bind app].
  eapply drop_temporary; [exact H4|].
  apply site_ok with (a := [SView nm; SStr li; SSize got]); [reflexivity| | |assumption].
  - constructor; [apply Hv4|assumption|]. constructor; [assumption|]. repeat constructor.
  - subst e.
    change (prints (lit "Wrong number of arguments to '" ++ lit "%.*s" ++ lit "': expected " ++ lit "%s" ++
                    lit ", got " ++ lit "%zu" ++ [])
                   [SView nm; SStr li; SSize got]
                   (lit "Wrong number of arguments to '" ++ u ++ lit "': expected " ++ li ++
                    lit ", got " ++ g)).
    apply prints_text; [reflexivity|]. constructor; [assumption|].
    apply prints_text; [reflexivity|]. constructor.
    apply prints_text; [reflexivity|]. rewrite <- (app_nil_r g). constructor; [assumption|constructor].
Qed.

End MessagesProofs.
