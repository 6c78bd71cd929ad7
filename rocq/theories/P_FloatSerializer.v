(** C59: floating-point parameters and results of commands. *)
From Coq Require Import Ascii String NArith ZArith QArith Bool PeanoNat Lia List.
Import ListNotations.
From Verif Require Import Util Base StringConv StringConvSpec StringConvProofs
  SerializerSpec Serializer SerializerProofs Lexer LexerSpec
  UMap UMapSpec Exec ExecSpec ExecProofs P_Serializer P_Exec P_EndToEnd
  FloatConv FloatConvSpec FloatRoundTrip P_Float FloatSerializer.
Local Open Scope nat_scope.

(** The possible formats of long double: that of double, or the one of x87. *)
Definition long_double_format (ld : fmt) : Prop := ld = binary64 \/ ld = x87.

Lemma format_sane ld t : long_double_format ld -> sane (format ld t).
Proof. intros [->| ->]; destruct t; unfold sane; cbn; lia. Qed.

Lemma format_standard ld t : long_double_format ld -> standard (format ld t).
Proof. unfold standard. intros [->| ->]; destruct t; cbn; auto. Qed.

(** An argument is accepted if it has one sub-value that is a number, and the parameter gets
    the nearest value. *)
Theorem C59_accept_iff : forall ld uf t v x, long_double_format ld ->
  (from_value (float_serializer ld uf t) v = Value x <->
   exists s, v = [s] /\ conversion (format ld t) uf s x).
Proof.
  intros ld uf t v x H. apply (format_sane ld t) in H.
  cbn [from_value float_serializer arith_serializer]. unfold arithmeticFromString.
  destruct v as [|s [|s' v]].
  - split; [easy|]. now intros (s & E & _).
  - destruct (floatFromString (format ld t) uf s) as [y|] eqn:E.
    + split.
      * intros [= ->]. exists s. split; [reflexivity|]. now apply C58_exact.
      * intros (s' & [= <-] & C). apply C58_exact in C; [|exact H].
        rewrite E in C. now injection C as ->.
    + split; [easy|]. intros (s' & [= <-] & C). apply C58_exact in C; [|exact H].
      rewrite E in C. discriminate C.
  - split; [easy|]. now intros (s0 & E & _).
Qed.

Lemma conversion_error_unique n v d e e' :
  conversion_error n v d e -> conversion_error n v d e' -> e = e'.
Proof.
  intros H H'. destruct H as [r J|r d J]; inversion H' as [r' J'|r' d' J']; subst;
    now rewrite (joined_det _ _ _ _ J J').
Qed.

Lemma mismatch_detail_unique a b d d' : mismatch_detail a b d -> mismatch_detail a b d' -> d = d'.
Proof.
  intros [x y X Y] H. inversion H as [x' y' X' Y']; subst.
  rewrite (canonical_unique _ _ _ (Zle_0_nat a) X X').
  now rewrite (canonical_unique _ _ _ (Zle_0_nat b) Y Y').
Qed.

(** Otherwise there is an error text with the name of the type and the argument. *)
Theorem C59_error_iff : forall ld uf t v e, long_double_format ld -> value_no_nul v ->
  (from_value (float_serializer ld uf t) v = Error e <->
   (exists s, v = [s] /\ (forall x, ~ conversion (format ld t) uf s x) /\
      conversion_error (float_name t) v None e) \/
   (length v <> 1 /\ exists d, mismatch_detail 1 (length v) d /\
      conversion_error (float_name t) v (Some d) e)).
Proof.
  intros ld uf t v e H Hv. split.
  - intros E.
    assert (Hn : no_nul (float_name t)) by (destruct t; now apply no_nul_lit).
    destruct (arith_error _ _ _ _ _ Hn Hv E) as [[L C]|R]; [left|now right].
    destruct v as [|s [|s' v]]; try easy. exists s. split; [reflexivity|]. split; [|exact C].
    intros x K.
    assert (A : from_value (float_serializer ld uf t) [s] = Value x) by (apply C59_accept_iff; eauto).
    rewrite A in E. discriminate.
  - intros K. destruct (from_value (float_serializer ld uf t) v) as [x|e'] eqn:E.
    + exfalso. apply C59_accept_iff in E; [|exact H]. destruct E as (s & -> & C).
      destruct K as [(s' & [= <-] & N & _)|[N _]]; [now apply (N x)|now apply N].
    + assert (Hn : no_nul (float_name t)) by (destruct t; now apply no_nul_lit).
      destruct (arith_error _ _ _ _ _ Hn Hv E) as [[L C]|(L & d & D & C)];
        destruct K as [(s & -> & _ & C')|(L' & d' & D' & C')]; try easy.
      * f_equal. eapply conversion_error_unique; eauto.
      * f_equal. assert (d = d') by (eapply mismatch_detail_unique; eauto). subst d'.
        eapply conversion_error_unique; eauto.
Qed.

(** The three names are those of no other scalar type. *)
Theorem C59_names : forall nm t t' i,
  (float_name t = float_name t' -> t = t') /\ float_name t <> arithmeticName nm i.
Proof.
  intros nm t t' i. split; [destruct t, t'; easy|].
  destruct nm as [[] []], t, i; intros E; vm_compute in E; discriminate E.
Qed.

(** A vector of numbers. *)
Theorem C59_vector : forall ld uf t v xs, long_double_format ld ->
  (from_value (vector_serializer (float_serializer ld uf t)) v = Value xs <->
   Forall2 (conversion (format ld t) uf) v xs).
Proof.
  intros ld uf t v xs H. refine (iff_trans (C17_vector_accept_iff _ _ _) _).
  split; intros K; induction K as [|s x v' xs' A K IH]; constructor; auto.
  - apply C59_accept_iff in A; [|exact H]. now destruct A as (s' & [= <-] & A).
  - apply C59_accept_iff; eauto.
Qed.

(** ** From the text of a command to the handler *)

Lemma no_quotes_app a b : no_quotes a -> no_quotes b -> no_quotes (a ++ b).
Proof. intros A B c H. apply in_app_iff in H. destruct H; [now apply A|now apply B]. Qed.

Lemma no_quotes_cons c b : c <> dquote /\ c <> ascii_of_nat 39 -> no_quotes b -> no_quotes (c :: b).
Proof. intros A B x [<-|H]; [exact A|now apply B]. Qed.

Lemma no_quotes_nil : no_quotes [].
Proof. easy. Qed.

Lemma spells_no_quotes w : (forall c, In c w -> 97 <= nat_of_ascii c) ->
  forall s, spells s w -> no_quotes s.
Proof.
  intros L s H. unfold spells in H. revert L.
  induction H as [|c l s w H _ IH]; intros L; [easy|].
  apply no_quotes_cons; [|apply IH; intros; apply L; now right].
  assert (G := L l (or_introl eq_refl)). assert (G' : 65 <= nat_of_ascii c) by (destruct H; subst; lia).
  split; intros ->; vm_compute in G'; lia.
Qed.

Lemma digits_no_quotes s z : digits s z -> no_quotes s.
Proof. exact (digits_char s z). Qed.

Lemma xdigit_no_quotes c d : xdigit c d -> c <> dquote /\ c <> ascii_of_nat 39.
Proof.
  intros [c' d' H|n H|n H].
  - apply (digits_no_quotes [c'] d'); [now constructor|now left].
  - do 6 (destruct n as [|n]; [split; discriminate|]). lia.
  - do 6 (destruct n as [|n]; [split; discriminate|]). lia.
Qed.

Lemma xdigits_no_quotes s z : xdigits s z -> no_quotes s.
Proof.
  induction 1 as [c d H|s c z d _ IH H].
  - apply no_quotes_cons; [eapply xdigit_no_quotes; eauto|easy].
  - apply no_quotes_app; [exact IH|]. apply no_quotes_cons; [eapply xdigit_no_quotes; eauto|easy].
Qed.

Lemma fraction_no_quotes ip ft fp : fraction ft fp -> no_quotes (ip ++ fp) -> no_quotes ip /\ no_quotes ft.
Proof.
  intros F H. split; [intros c I; apply H, in_app_iff; now left|].
  destruct F as [|fp]; [easy|]. apply no_quotes_cons; [split; discriminate|].
  intros c I. apply H, in_app_iff. now right.
Qed.

Lemma exponent_no_quotes l s x : 97 <= nat_of_ascii l -> exponent l s x -> no_quotes s.
Proof.
  intros L [|c sg f ds z C S D]; [easy|]. change (c :: sg ++ ds) with ([c] ++ sg ++ ds).
  apply no_quotes_app; [|apply no_quotes_app].
  - eapply spells_no_quotes; [|exact C]. intros x' [<-|[]]. exact L.
  - destruct S; try easy; (apply no_quotes_cons; [split; discriminate|easy]).
  - eapply digits_no_quotes; eauto.
Qed.

Lemma n_char_no_quotes s : Forall n_char s -> no_quotes s.
Proof.
  induction 1 as [|c s H _ IH]; [easy|]. apply no_quotes_cons; [|exact IH].
  destruct H as [(d & D)|[->|H]].
  - apply (digits_no_quotes [c] d); [now constructor|now left].
  - split; discriminate.
  - split; intros ->; vm_compute in H; lia.
Qed.

Lemma low_chars w : forallb (fun c => 97 <=? nat_of_ascii c) w = true ->
  forall c, In c w -> 97 <= nat_of_ascii c.
Proof. intros H c I. rewrite forallb_forall in H. now apply Nat.leb_le, H. Qed.

Lemma unsigned_no_quotes s M : unsigned_text s M -> no_quotes s.
Proof.
  intros [s0 q D|s0 q D|s0 H|s0 H|s0 t H T].
  - destruct D as [ip ft fp ex z x F D E]. apply digits_no_quotes in D.
    destruct (fraction_no_quotes _ _ _ F D). apply no_quotes_app; [assumption|].
    apply no_quotes_app; [assumption|]. eapply exponent_no_quotes; [|exact E]. vm_compute; lia.
  - destruct D as [c ip ft fp ex z x C F D E]. apply xdigits_no_quotes in D.
    destruct (fraction_no_quotes _ _ _ F D). apply no_quotes_cons; [split; discriminate|].
    change (c :: ip ++ ft ++ ex) with ([c] ++ ip ++ ft ++ ex). apply no_quotes_app.
    { eapply spells_no_quotes; [|exact C]. now apply low_chars. }
    apply no_quotes_app; [assumption|]. apply no_quotes_app; [assumption|].
    eapply exponent_no_quotes; [|exact E]. vm_compute; lia.
  - eapply spells_no_quotes; [|exact H]. now apply low_chars.
  - eapply spells_no_quotes; [|exact H]. now apply low_chars.
  - apply no_quotes_app.
    + eapply spells_no_quotes; [|exact H]. now apply low_chars.
    + destruct T as [|r R]; [easy|]. apply no_quotes_cons; [split; discriminate|].
      apply no_quotes_app; [now apply n_char_no_quotes|]. apply no_quotes_cons; [split; discriminate|easy].
Qed.

Lemma float_text_no_quotes s neg M : float_text s neg M -> no_quotes s.
Proof.
  intros [ws sg ng s0 M0 B S U]. apply no_quotes_app; [|apply no_quotes_app].
  - intros c I. apply B in I. unfold blank in I. split; intros ->; vm_compute in I; lia.
  - destruct S as [[-> _]|[[-> _]|[-> _]]]; [easy|apply no_quotes_cons; [split; discriminate|easy]..].
  - eapply unsigned_no_quotes; eauto.
Qed.

(** Every accepted text can be passed in quotes. *)
Theorem C59_texts_quotable : forall f uf s x, conversion f uf s x -> no_quotes s.
Proof. intros f uf s x [neg q m e H _ _ _|neg H|neg H]; eapply float_text_no_quotes; eauto. Qed.

(** A command with floating-point parameters that is given numbers calls its handler with
    the nearest values. *)
Theorem C59_call_delivered : forall W F (code : F -> functor W F) sg catching d
  (s s' : state (W * list (call code)) F) r name cmd f ld uf (l : list (bytes * ftype * fval)),
  long_double_format ld ->
  (forall f vs, only no_nesting (f_body (code f) vs)) ->
  s_lexer s = Some (parse_input sg default_cfg) ->
  name <> [] -> no_quotes name -> get sg s name = Done (Some cmd) ->
  chosen code (c_functors cmd) (length l) f ->
  f_params (code (snd f)) = map (fun a => float_serializer ld uf (snd (fst a))) l ->
  (forall t ty x, In (t, ty, x) l -> conversion (format ld ty) uf t x) ->
  exec_text (traced code) sg catching d s (render name (map (fun a => WPos [fst (fst a)]) l))
    = Done (s', r) ->
  exists vs,
    values_of _ vs = map (fun a => existT carrier (float_serializer ld uf (snd (fst a))) (snd a)) l /\
    snd (s_world s') = snd (s_world s) ++ [existT _ (snd f) vs].
Proof.
  intros W F code sg catching d s s' r name cmd f ld uf l Hld N L Ne Q G C P Hc E.
  set (ta := fun a : bytes * ftype * fval =>
    (fst (fst a), existT carrier (float_serializer ld uf (snd (fst a))) (snd a) : typed)).
  assert (M : map (fun a : bytes * ftype * fval => WPos [fst (fst a)]) l = map text_arg (map ta l))
    by (rewrite map_map; reflexivity).
  assert (S : map snd (map ta l) =
    map (fun a => existT carrier (float_serializer ld uf (snd (fst a))) (snd a)) l)
    by (rewrite map_map; reflexivity).
  rewrite M in E. rewrite <- S. eapply C53_texts_delivered; eauto.
  - now rewrite map_length.
  - now rewrite map_map.
  - apply Forall_map, Forall_forall. intros [[t ty] x] I. specialize (Hc t ty x I). split.
    + simpl projT1. simpl projT2. apply C59_accept_iff; [exact Hld|]. exists t. auto.
    + eapply C59_texts_quotable; eauto.
Qed.

(** A value that has been printed and read is delivered exactly from then on, for double and
    long double. *)
Theorem C59_printed_writable : forall ld uf t v v',
  long_double_format ld -> t <> TFloat -> value_in (format ld t) v ->
  from_value (float_serializer ld uf t) [to_text (float_serializer ld uf t) v] = Value v' ->
  writable (existT carrier (float_serializer ld uf t) v').
Proof.
  intros ld uf t v v' Hld Ht Hv H. unfold writable. simpl projT1. simpl projT2.
  assert (Hf : format ld t = binary64 \/ format ld t = x87)
    by (destruct t; [easy|now left|exact Hld]).
  assert (K := H). apply C59_accept_iff in K; [|exact Hld]. destruct K as (s0 & Es & K).
  injection Es as <-.
  assert (K' := K). apply C58_exact in K'; [|now apply format_sane].
  assert (S := C57_text_stable _ _ _ _ Hf Hv K').
  cbn [to_text float_serializer arith_serializer] in *. rewrite S.
  split; [exact H|]. eapply C59_texts_quotable; eauto.
Qed.

(** Not for float: the value read from the printed 1e-06 is printed as 0. *)
Theorem C59_printed_writable_refuted : forall ld uf,
  exists v v', value_in (format ld TFloat) v /\
    from_value (float_serializer ld uf TFloat) [to_text (float_serializer ld uf TFloat) v] = Value v' /\
    ~ writable (existT carrier (float_serializer ld uf TFloat) v').
Proof.
  intros ld uf. exists (Fin false 8796094 (-43)), (Fin false 8796093 (-43)).
  split; [unfold value_in, magnitude_in; cbn; lia|].
  split; [destruct uf; now vm_compute|].
  intros [H _]. destruct uf; vm_compute in H; discriminate.
Qed.

Example C59_ex :
  let T := float_serializer x87 true in
  from_value (T TFloat) [lit "0.1"] = Value (Fin false 13421773 (-27)) /\
  from_value (T TDouble) [lit "x"] = Error (lit "Unable to convert 'x' to type 'double'") /\
  from_value (T TLongDouble) [lit "1"; lit "2"] =
    Error (lit "Unable to convert '1 2' to type 'long double': Expected 1 subvalues, got 2") /\
  from_value (vector_serializer (T TDouble)) [lit "1"; lit "1e999"] =
    Error (lit "Unable to convert '1 1e999' to type 'vector<double>': Unable to convert '1e999' to type 'double'").
Proof. repeat split; vm_compute; reflexivity. Qed.

(** A command "half" with a double parameter. *)
Definition half_code (f : unit) : functor Z unit :=
  let T := float_serializer x87 true TDouble in
  Functor false [T] (RValue T)
    (fun vs => Ret (match fst vs with
                    | Fin neg m e => Fin neg m (e - 1)
                    | v => v
                    end : rcarrier (RValue T))).

Example C59_ex_command :
  (s <- add true (fresh_bindings true 0%Z) (lit "half") [tt] ;;
   r <- exec_text half_code true true 0 s (lit "half 5") ;; Done (snd r)) =
  Done (inl (Result (Input (lit "half") [[lit "5"]] []) [] (Some (lit "2.5")) [])).
Proof. vm_compute. reflexivity. Qed.

(** * Assumptions *)
Print Assumptions C59_accept_iff.
Print Assumptions C59_error_iff.
Print Assumptions C59_names.
Print Assumptions C59_vector.
Print Assumptions C59_texts_quotable.
Print Assumptions C59_call_delivered.
Print Assumptions C59_printed_writable.
Print Assumptions C59_printed_writable_refuted.
