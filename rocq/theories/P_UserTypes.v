(** Property C76: the user-defined types of the examples. *)
From Coq Require Import Ascii String NArith ZArith QArith Qabs Bool PeanoNat Lia List.
Import ListNotations.
From Verif Require Import Util Base StringConv StringConvSpec StringConvProofs P_StringConv
  SerializerSpec Serializer SerializerProofs P_Serializer Lexer LexerSpec
  UMap UMapSpec Exec ExecSpec ExecProofs P_Exec P_Exec2
  FloatConv FloatConvSpec FloatArith FloatRound FloatConvProofs FloatRoundTrip P_Float FloatSerializer P_FloatSerializer
  UserTypes UserTypesSpec FloatFixed UserTypesProofs.

Local Notation length := List.length.
Local Open Scope nat_scope.

(** * C76  User-defined types of the examples *)

(** ** Pairs of floats *)

Lemma pair_value uf name v xy : pair_fromString uf name v = Value xy <-> denotes_pair uf v xy.
Proof.
  unfold denotes_pair. destruct v as [|s [|t [|u v]]].
  1,2,4: split; [discriminate|intros (s' & t' & [=] & _)].
  cbn [pair_fromString]. cbv zeta.
  destruct (from_value (float_ser uf) [s]) as [a|e] eqn:A.
  2:{ split; [discriminate|]. intros (s' & t' & [= <- <-] & X & _). apply float_ser_value in X. rewrite A in X. discriminate X. }
  destruct (from_value (float_ser uf) [t]) as [b|e] eqn:B.
  2:{ split; [discriminate|]. intros (s' & t' & [= <- <-] & _ & Y). apply float_ser_value in Y. rewrite B in Y. discriminate Y. }
  split.
  - intros [= <-]. apply float_ser_value in A, B. exists s, t. auto.
  - intros (s' & t' & [= <- <-] & X & Y). apply float_ser_value in X, Y. destruct xy as [x y].
    cbn [fst snd] in X, Y. rewrite A in X. rewrite B in Y. injection X as ->. injection Y as ->. reflexivity.
Qed.

(** An argument of type Vec2 or Point is accepted exactly if it is compound with two items that
    are numbers, and the value consists of the nearest floats. *)
Theorem C76_pair_accept_iff : forall uf point_name v xy,
  (from_value (vec2_serializer uf) v = Value xy <-> denotes_pair uf v xy) /\
  (from_value (point_serializer uf point_name) v = Value xy <-> denotes_pair uf v xy).
Proof. intros uf point_name v xy. split; apply pair_value. Qed.

Lemma pair_error_made uf name v e : no_nul name -> value_no_nul v ->
  pair_fromString uf name v = Error e -> pair_error uf name v e.
Proof.
  intros Nn Nv H.
  assert (Mis : length v <> 2 -> e = createMismatchedSubvaluesError name v 2 -> pair_error uf name v e).
  { intros L ->. destruct (mismatched_error name v 2 Nn Nv) as (d & D & C). now apply (pair_count uf name v d). }
  destruct v as [|s [|t [|u v]]]; cbn [pair_fromString] in H; cbv zeta in H.
  1,2,4: apply Mis; [discriminate|congruence].
  clear Mis. assert (Ns : no_nul s) by (apply Nv; now left).
  assert (Nt : no_nul t) by (apply Nv; right; now left).
  destruct (from_value (float_ser uf) [s]) as [a|d] eqn:A.
  - destruct (from_value (float_ser uf) [t]) as [b|d] eqn:B; [discriminate|]. injection H as <-.
    destruct (float_error_ok uf t d Nt B) as [D1 D2].
    apply float_ser_error in B; [|exact Nt]. destruct B as [B1 B2]. apply float_ser_value in A.
    apply (pair_second uf name [s; t] s t d); auto; [now exists a|]. now apply generic_error_detail.
  - injection H as <-. destruct (float_error_ok uf s d Ns A) as [D1 D2].
    apply float_ser_error in A; [|exact Ns]. destruct A as [A1 A2].
    apply (pair_first uf name [s; t] s t d); auto. now apply generic_error_detail.
Qed.

Lemma pair_error_det uf name v e e' : pair_error uf name v e -> pair_error uf name v e' -> e = e'.
Proof.
  intros [d e0 L D C|s t d e0 E N D C|s t d e0 E Y N D C]
         [d' e0' L' D' C'|s' t' d' e0' E' N' D' C'|s' t' d' e0' E' Y' N' D' C'];
    try (subst v; exfalso; apply L; reflexivity); try (subst v; exfalso; apply L'; reflexivity);
    try (rewrite E in E'; injection E' as <- <-).
  - assert (d = d') by (eapply mismatch_detail_unique; eauto). subst d'. eapply conversion_error_unique; eauto.
  - assert (d = d') by (eapply conversion_error_unique; eauto). subst d'. eapply conversion_error_unique; eauto.
  - contradiction.
  - contradiction.
  - assert (d = d') by (eapply conversion_error_unique; eauto). subst d'. eapply conversion_error_unique; eauto.
Qed.

(** Every other argument is rejected; the message is about the number of items or about the
    first item that is no number. *)
Theorem C76_pair_error_iff : forall uf point_name v e, no_nul point_name -> value_no_nul v ->
  (from_value (vec2_serializer uf) v = Error e <-> pair_error uf (lit "Vec2") v e) /\
  (from_value (point_serializer uf point_name) v = Error e <-> pair_error uf point_name v e).
Proof.
  intros uf point_name v e Np Nv.
  assert (K : forall name, no_nul name -> (pair_fromString uf name v = Error e <-> pair_error uf name v e)).
  { intros name Nn. split; [now apply pair_error_made|]. intros H.
    destruct (pair_fromString uf name v) as [xy|e'] eqn:E.
    - exfalso. apply pair_value in E. destruct E as (s & t & -> & X & Y).
      destruct H as [d e L _ _|s' t' d e [= <- <-] N _ _|s' t' d e [= <- <-] _ N _ _].
      + now apply L.
      + apply N. now exists (fst xy).
      + apply N. now exists (snd xy).
    - f_equal. apply (pair_error_det uf name v); [now apply pair_error_made|exact H]. }
  split; apply K; [now apply no_nul_lit|exact Np].
Qed.

(** A Vec2 is shown with six decimals, a Point with at most six significant digits. *)
Theorem C76_vec2_text : forall uf x y r, value_in binary32 x -> value_in binary32 y ->
  (to_text (vec2_serializer uf) (x, y) = r <->
   exists s t, shows_fixed x s /\ shows_fixed y t /\ r = lit "(" ++ s ++ lit ", " ++ t ++ lit ")").
Proof.
  intros uf x y r X Y. cbn [to_text vec2_serializer]. unfold vec2_text. cbn [fst snd]. split.
  - intros <-. exists (printf_f x), (printf_f y).
    split; [now apply shows_fixed_iff|]. split; [now apply shows_fixed_iff|reflexivity].
  - intros (s & t & S & T & ->). apply shows_fixed_iff in S, T; auto. now subst.
Qed.

(** Such a text behind the name of a command is one compound argument with two items. *)
Lemma vec2_command sg name x y : bare_name name -> value_in binary32 x -> value_in binary32 y ->
  parse_input sg default_cfg (name ++ " "%char :: vec2_text (x, y)) =
  Done (Value (Input name [[printf_f x; printf_f y]] [])).
Proof.
  intros N X Y. destruct (printf_f_plain x X) as [Px Nx]. destruct (printf_f_plain y Y) as [Py Ny].
  exact (pair_parses sg name _ _ [","%char; " "%char] N Px Nx Py Ny (or_intror eq_refl)).
Qed.

Lemma point_command sg name x y : bare_name name -> value_in binary32 x -> value_in binary32 y ->
  parse_input sg default_cfg (name ++ " "%char :: point_text (x, y)) =
  Done (Value (Input name [[printf_g x; printf_g y]] [])).
Proof.
  intros N X Y. destruct (printf_g_plain x X) as [Px Nx]. destruct (printf_g_plain y Y) as [Py Ny].
  exact (pair_parses sg name _ _ [","%char] N Px Nx Py Ny (or_introl eq_refl)).
Qed.

Lemma float_read uf s x : floatFromString binary32 uf s = Some x -> conversion binary32 uf s x.
Proof. apply floatFromString_spec, binary32_sane. Qed.

Lemma variable_read W F (code : F -> functor W F) sg catching d s name named T rd wr :
  bound code sg s name (variable T rd wr) -> name <> [] ->
  exec_input code sg catching d s (Input name [] named) =
  Done (s, inl (Result (Input name [] named) [] (Some (to_text T (rd (s_world s)))) [])).
Proof.
  intros Bd Ne. apply bound_two in Bd. destruct Bd as (n & a & b & G & A & B).
  rewrite (two_overloads code sg catching d s (Input name [] named) n a b Ne G) by (rewrite ?A, ?B; reflexivity).
  cbn [i_args]. unfold invokeTrampoline. rewrite A. simpl. reflexivity.
Qed.

Lemma variable_write W F (code : F -> functor W F) sg catching d s name named T rd wr v x :
  bound code sg s name (variable T rd wr) -> name <> [] -> (forall x w, rd (wr x w) = x) ->
  from_value T v = Value x ->
  exec_input code sg catching d s (Input name [v] named) =
  Done (set_world s (wr x (s_world s)), inl (Result (Input name [v] named) [] (Some (to_text T x)) [])).
Proof.
  intros Bd Ne Law V. apply bound_two in Bd. destruct Bd as (n & a & b & G & A & B).
  rewrite (two_overloads code sg catching d s (Input name [v] named) n a b Ne G) by (rewrite ?A, ?B; reflexivity).
  cbn [i_args]. unfold invokeTrampoline. rewrite B. simpl. rewrite V. unfold invoke. simpl. now rewrite Law.
Qed.

Lemma exec_text_parsed W F (code : F -> functor W F) sg catching d s text inp :
  s_lexer s = Some (parse_input sg default_cfg) ->
  parse_input sg default_cfg text = Done (Value inp) ->
  exec_text code sg catching d s text = exec_input code sg catching d s inp.
Proof. intros L P. unfold exec_text, execute_text. rewrite L, P. reflexivity. Qed.

(** Sending the text of a value to a variable of type Vec2 is accepted, whatever the value:
    afterwards the variable shows the same text, and its components have changed by 10^-6 at
    most.  They have not changed at all if they are 16 or more. *)
Theorem C76_vec2_read_back : forall W F (code : F -> functor W F) sg catching d s name uf rd wr x y,
  bound code sg s name (variable (vec2_serializer uf) rd wr) ->
  s_lexer s = Some (parse_input sg default_cfg) -> bare_name name ->
  (forall v w, rd (wr v w) = v) ->
  rd (s_world s) = (x, y) -> value_in binary32 x -> value_in binary32 y ->
  exists text inp x' y',
    exec_text code sg catching d s name =
      Done (s, inl (Result (Input name [] []) [] (Some text) [])) /\
    exec_text code sg catching d s (name ++ " "%char :: text) =
      Done (set_world s (wr (x', y') (s_world s)), inl (Result inp [] (Some text) [])) /\
    close x x' /\ close y y' /\ (at_least_16 x -> x' = x) /\ (at_least_16 y -> y' = y).
Proof.
  intros W F code sg catching d s name uf rd wr x y B L N Law R X Y.
  assert (Ne : name <> []) by apply N.
  destruct (f_reread uf x X) as (x' & X' & Rx & Tx & Cx & Ex).
  destruct (f_reread uf y Y) as (y' & Y' & Ry & Ty & Cy & Ey).
  exists (vec2_text (x, y)), (Input name [[printf_f x; printf_f y]] []), x', y'.
  split; [|split; [|auto]].
  - rewrite (exec_text_parsed _ _ _ _ _ _ _ _ _ L (name_parses sg name N)).
    rewrite (variable_read _ _ code sg catching d s name [] _ rd wr B Ne), R. reflexivity.
  - rewrite (exec_text_parsed _ _ _ _ _ _ _ _ _ L (vec2_command sg name x y N X Y)).
    assert (V : from_value (vec2_serializer uf) [printf_f x; printf_f y] = Value (x', y')).
    { apply pair_value. exists (printf_f x), (printf_f y). split; [reflexivity|].
      split; apply float_read; assumption. }
    refine (eq_trans (variable_write _ _ code sg catching d s name [] _ rd wr _ _ B Ne Law V) _).
    cbn [to_text vec2_serializer]. unfold vec2_text. cbn [fst snd]. now rewrite Tx, Ty.
Qed.

(** Below 16 a component may change: 8388619 * 2^-20 is shown as 8.000010. *)
Theorem C76_vec2_exact_refuted : forall uf, exists x,
  value_in binary32 x /\ ~ at_least_16 x /\
  exists x', denotes_pair uf [printf_f x; printf_f x] (x', x') /\ x' <> x.
Proof.
  intros uf. exists (Fin false 8388619 (-20)). split; [unfold value_in, magnitude_in; cbn; lia|].
  split.
  - unfold at_least_16. intros H. apply Qle_bool_iff in H. vm_compute in H. discriminate H.
  - exists (Fin false 8388618 (-20)). split; [|discriminate].
    exists (printf_f (Fin false 8388619 (-20))), (printf_f (Fin false 8388619 (-20))).
    split; [reflexivity|]. split; apply float_read; destruct uf; now vm_compute.
Qed.

(** Full statement for Point (false): the text shown is accepted. *)
Definition C76_point_full_statement : Prop :=
  forall uf point_name x y, value_in binary32 x -> value_in binary32 y ->
  forall sg name, bare_name name -> exists items xy,
    parse_input sg default_cfg (name ++ " "%char :: to_text (point_serializer uf point_name) (x, y)) =
      Done (Value (Input name [items] [])) /\
    from_value (point_serializer uf point_name) items = Value xy.

Lemma parsed_items (n : bytes) (a b : value) :
  Done (Value (Input n [a] [])) = Done (Value (Input n [b] [])) -> b = a.
Proof. now intros [= ->]. Qed.

Lemma point_rejects x : value_in binary32 x -> floatFromString binary32 true (printf_g x) = None ->
  ~ C76_point_full_statement.
Proof.
  intros X R H.
  assert (N : bare_name (lit "pivot")).
  { split; [discriminate|]. repeat (apply Forall_cons; [left; right; right; left; vm_compute; lia|]). apply Forall_nil. }
  destruct (H true [] x x X X true (lit "pivot") N) as (items & xy & P & V).
  assert (P' := point_command true (lit "pivot") x x N X X).
  apply (eq_trans (eq_sym P')) in P. apply parsed_items in P. subst items.
  apply (proj1 (proj2 (C76_pair_accept_iff true [] _ xy))) in V. destruct V as (s & t & E & V & _).
  apply (f_equal (hd [])) in E. cbn [hd] in E. subst s.
  apply floatFromString_spec in V; [|exact binary32_sane]. rewrite R in V. discriminate V.
Qed.

(** The least normal float is shown as 1.17549e-38, which is less, and which strtof rejects if
    it reports inexact tiny results. *)
Theorem C76_point_refuted : ~ C76_point_full_statement.
Proof.
  apply (point_rejects (Fin false 8388608 (-149))); [unfold value_in, magnitude_in; cbn; lia|now vm_compute].
Qed.

(** It is accepted, and the variable shows the same text again, if both components are zero or
    at least 1.1755 * 10^-38. *)
Theorem C76_point_read_back : forall W F (code : F -> functor W F) sg catching d s name uf point_name rd wr x y,
  bound code sg s name (variable (point_serializer uf point_name) rd wr) ->
  s_lexer s = Some (parse_input sg default_cfg) -> bare_name name ->
  (forall v w, rd (wr v w) = v) ->
  rd (s_world s) = (x, y) -> value_in binary32 x -> value_in binary32 y -> not_tiny x -> not_tiny y ->
  exists text inp x' y',
    exec_text code sg catching d s name =
      Done (s, inl (Result (Input name [] []) [] (Some text) [])) /\
    exec_text code sg catching d s (name ++ " "%char :: text) =
      Done (set_world s (wr (x', y') (s_world s)), inl (Result inp [] (Some text) [])).
Proof.
  intros W F code sg catching d s name uf point_name rd wr x y B L N Law R X Y Tx Ty.
  assert (Ne : name <> []) by apply N.
  destruct (g_reread_any uf x X Tx) as (x' & X' & Rx & Sx).
  destruct (g_reread_any uf y Y Ty) as (y' & Y' & Ry & Sy).
  exists (point_text (x, y)), (Input name [[printf_g x; printf_g y]] []), x', y'. split.
  - rewrite (exec_text_parsed _ _ _ _ _ _ _ _ _ L (name_parses sg name N)).
    rewrite (variable_read _ _ code sg catching d s name [] _ rd wr B Ne), R. reflexivity.
  - rewrite (exec_text_parsed _ _ _ _ _ _ _ _ _ L (point_command sg name x y N X Y)).
    assert (V : from_value (point_serializer uf point_name) [printf_g x; printf_g y] = Value (x', y')).
    { apply pair_value. exists (printf_g x), (printf_g y). split; [reflexivity|].
      split; apply float_read; assumption. }
    refine (eq_trans (variable_write _ _ code sg catching d s name [] _ rd wr _ _ B Ne Law V) _).
    cbn [to_text point_serializer]. unfold point_text. cbn [fst snd]. now rewrite Sx, Sy.
Qed.

(** The text of a particle tells its name, position and velocity apart, up to what the text of a
    point tells about it. *)
Lemma split_at_first (c : byte) : forall a b x y, ~ In c a -> ~ In c b ->
  a ++ c :: x = b ++ c :: y -> a = b /\ x = y.
Proof.
  induction a as [|d a IH]; intros [|e b] x y A B E; cbn in E.
  - now injection E as ->.
  - injection E as <- _. elim B. now left.
  - injection E as -> _. elim A. now left.
  - injection E as -> E. apply IH in E; [|intros I; apply A; now right|intros I; apply B; now right].
    destruct E as [-> ->]. now split.
Qed.

Lemma point_text_closed v : value_in binary32 (fst v) -> value_in binary32 (snd v) ->
  exists t, point_text v = t ++ [")"%char] /\ ~ In ")"%char t.
Proof.
  intros X Y. exists (lit "(" ++ printf_g (fst v) ++ lit "," ++ printf_g (snd v)). split.
  - unfold point_text. now rewrite <- !app_assoc.
  - destruct (printf_g_plain _ X) as [Px _]. destruct (printf_g_plain _ Y) as [Py _].
    assert (K : forall s, plain s -> ~ In ")"%char s).
    { intros s P I. unfold plain in P. rewrite forallb_forall in P. now specialize (P _ I). }
    intros I. rewrite !in_app_iff in I. destruct I as [[I|[]]|[I|[[I|[]]|I]]]; try discriminate I;
      now apply K in I.
Qed.

Theorem C76_particle_text : forall id id' pos pos' vel vel',
  ~ In (ascii_of_nat 39) id -> ~ In (ascii_of_nat 39) id' ->
  (forall v, In v [pos; pos'; vel; vel'] -> value_in binary32 (fst v) /\ value_in binary32 (snd v)) ->
  particle_text id pos vel = particle_text id' pos' vel' ->
  id = id' /\ point_text pos = point_text pos' /\ point_text vel = point_text vel'.
Proof.
  intros id id' pos pos' vel vel' N N' V E. unfold particle_text in E.
  destruct (point_text_closed pos) as (t & T & Nt); try (apply V; cbn; auto).
  destruct (point_text_closed pos') as (t' & T' & Nt'); try (apply V; cbn; auto).
  revert T T' E. generalize (point_text pos) (point_text pos') (point_text vel) (point_text vel').
  intros u u' w w' -> -> E.
  apply app_inv_head in E. apply (split_at_first (ascii_of_nat 39)) in E; [|exact N|exact N'].
  destruct E as [-> E]. split; [reflexivity|].
  apply (app_inv_head (lit ": p ")) in E. rewrite <- !app_assoc in E. cbn [app] in E.
  apply (split_at_first ")"%char) in E; [|exact Nt|exact Nt']. destruct E as [-> E]. split; [reflexivity|].
  apply app_inv_head in E. now apply app_inj_tail in E.
Qed.

(** ** EntityId *)

(** An argument is accepted exactly if it is one text that is a number of size_t.  Texts that
    start with blanks and a minus sign are those of C14_negative_exact. *)
Theorem C76_entity_accept_iff : forall p nm t v x, is_unsigned t = true ->
  (forall s, v = [s] -> ~ blank_minus s) ->
  (from_value (entity_serializer p nm t) v = Value x <->
   exists s, v = [s] /\ denotes s x /\ in_range p t x /\ ~ exists r, s = "-"%char :: r).
Proof.
  intros p nm t v x U Nb. cbn [from_value entity_serializer]. unfold entity_fromString.
  cbn [from_value int_serializer arith_serializer]. unfold arithmeticFromString.
  destruct v as [|s [|s' v]].
  - split; [discriminate|]. now intros (s & [=] & _).
  - specialize (Nb s eq_refl). destruct (fromString p t s) as [y|] eqn:E.
    + apply C14_unsigned_accept_iff in E; auto. split.
      * intros [= <-]. exists s. split; [reflexivity|exact E].
      * intros (s' & [= <-] & D & _). f_equal. destruct E as [D' _]. exact (denotes_det _ _ _ D' D).
    + split; [discriminate|]. intros (s' & [= <-] & H). apply (C14_unsigned_accept_iff p t s x U Nb) in H. congruence.
  - split; [discriminate|]. now intros (s0 & [=] & _).
Qed.

(** The error contains the one about the number. *)
Theorem C76_entity_error : forall p nm t v e, value_no_nul v ->
  from_value (entity_serializer p nm t) v = Error e ->
  exists d, conversion_error (lit "EntityId") v (Some d) e /\
    (length v = 1 /\ conversion_error (arithmeticName nm t) v None d \/
     length v <> 1 /\ exists c, mismatch_detail 1 (length v) c /\
       conversion_error (arithmeticName nm t) v (Some c) d).
Proof.
  intros p nm t v e Nv. cbn [from_value entity_serializer]. unfold entity_fromString.
  destruct (from_value (int_serializer p nm t) v) as [x|d] eqn:E; [discriminate|]. intros [= <-].
  exists d.
  destruct (C19_builtin_errors_nonempty p nm true (int_serializer p nm t) v d
              (builtin_scalar _ _ _ _ (scalar_int _ _ _ t)) Nv E) as (Nt & D1 & D2).
  split; [apply generic_error_detail; auto; now apply no_nul_lit|].
  exact (arith_error _ _ _ _ _ Nt Nv E).
Qed.

(** It is shown as its number in braces, and this text is never accepted. *)
Theorem C76_entity_text : forall p nm t x, in_range p t x -> is_unsigned t = true ->
  exists s, canonical x s /\ to_text (entity_serializer p nm t) x = lit "EntityId{" ++ s ++ lit "}".
Proof.
  intros p nm t x R U. exists (printf_u x). split; [|reflexivity].
  apply dec_canonical. unfold in_range in R. destruct t; try discriminate U; cbn in R; lia.
Qed.

Theorem C76_entity_read_back_refuted : forall p nm t x, is_unsigned t = true ->
  exists e, from_value (entity_serializer p nm t) [to_text (entity_serializer p nm t) x] = Error e.
Proof.
  intros p nm t x U. set (s := to_text (entity_serializer p nm t) x).
  destruct (from_value (entity_serializer p nm t) [s]) as [y|e] eqn:E; [|eauto]. exfalso.
  assert (Hd : s = "E"%char :: lit "ntityId{" ++ printf_u x ++ lit "}") by reflexivity.
  assert (Nb : forall ws r, s = ws ++ r -> ws <> [] -> blanks ws -> False).
  { intros [|c ws] r E' N B; [easy|]. rewrite Hd in E'. injection E' as Ec _. subst c.
    specialize (B "E"%char (or_introl eq_refl)). unfold blank in B. vm_compute in B.
    repeat destruct B as [B|B]; congruence. }
  apply C76_entity_accept_iff in E; [|exact U|].
  2:{ intros s' [= <-] (ws & r & E' & N & B). now apply (Nb ws (ascii_of_nat 45 :: r)). }
  destruct E as (s' & [= <-] & D & _). inversion D as [ws sg f ds z B Sg Ds E' Ez].
  destruct ws as [|c ws]; [|now apply (Nb (c :: ws) (sg ++ ds))].
  cbn [app] in E'. destruct Sg; cbn [app] in E'; [|rewrite Hd in E'; discriminate E'..].
  subst ds. rewrite Hd in Ds. apply FloatScan.digits_number in Ds. destruct Ds as (_ & Ds & _). discriminate Ds.
Qed.

(** ** DynamicArray and sum *)

Lemma array_loop_vector T name input rest acc :
  array_loop T name input rest acc = vector_loop T name input rest acc.
Proof.
  revert acc. induction rest as [|s rest IH]; intros acc; [reflexivity|].
  cbn [array_loop vector_loop]. destruct (from_value T [s]); [apply IH|reflexivity].
Qed.

(** An array is read item by item; the first item that is rejected is named. *)
Theorem C76_array_accept_iff : forall T v xs,
  from_value (array_serializer T) v = Value xs <->
  Forall2 (fun s x => from_value T [s] = Value x) v xs.
Proof.
  intros T v xs. cbn [from_value array_serializer]. rewrite array_loop_vector.
  refine (iff_trans (vector_loop_value T _ v v [] xs) _). cbn [app]. split.
  - now intros (ys & -> & H).
  - intros H. now exists xs.
Qed.

Theorem C76_array_error_iff : forall T v e,
  no_nul (tname T) -> value_no_nul v ->
  (forall s e0, In s v -> from_value T [s] = Error e0 -> e0 <> [] /\ no_nul e0) ->
  (from_value (array_serializer T) v = Error e <->
   exists pre s post e0, v = pre ++ s :: post /\
     (forall s', In s' pre -> exists x, from_value T [s'] = Value x) /\
     from_value T [s] = Error e0 /\
     conversion_error (lit "DynamicArray<" ++ tname T ++ lit ">") v (Some e0) e).
Proof.
  intros T v e Hn Hv He.
  assert (Hname : no_nul (lit "DynamicArray<" ++ tname T ++ lit ">")).
  { repeat apply no_nul_app; try easy; now apply no_nul_lit. }
  cbn [from_value array_serializer]. rewrite array_loop_vector.
  refine (iff_trans (vector_loop_error T _ v v [] e) _). split.
  - intros (pre & s & post & e0 & Hs & H1 & H2 & ->).
    exists pre, s, post, e0. split; [easy|]. split; [now apply Forall_forall|]. split; [easy|].
    destruct (He s e0) as [A B]; [rewrite Hs; apply in_app_iff; right; now left|easy|].
    now apply generic_error_detail.
  - intros (pre & s & post & e0 & Hs & H1 & H2 & H3).
    exists pre, s, post, e0. split; [easy|]. split; [now apply Forall_forall|]. split; [easy|].
    destruct (He s e0) as [A B]; [rewrite Hs; apply in_app_iff; right; now left|easy|].
    eapply conversion_error_unique; [exact H3|now apply generic_error_detail].
Qed.

Lemma int_range_b z : ((smin 32 <=? z) && (z <=? smax 32))%Z = true <-> int_range z.
Proof.
  unfold int_range. rewrite andb_true_iff, !Z.leb_le. change (smin 32) with (-2147483648)%Z.
  change (smax 32) with 2147483647%Z. lia.
Qed.

Definition total (xs : list Z) : Z := fold_right Z.add 0%Z xs.

Lemma total_app a b : total (a ++ b) = (total a + total b)%Z.
Proof. induction a as [|x a IH]; [reflexivity|]. simpl. fold (total a) (total (a ++ b)) in *. lia. Qed.

Lemma accumulate_spec xs : forall pre,
  (forall z, accumulate (total pre) xs = Done z <->
     z = total (pre ++ xs) /\
     forall a x b, xs = a ++ x :: b -> int_range (total (pre ++ a ++ [x]))) /\
  (forall f, accumulate (total pre) xs = Fault f <->
     f = Overflow /\ exists a x b, xs = a ++ x :: b /\ ~ int_range (total (pre ++ a ++ [x]))).
Proof.
  induction xs as [|x xs IH]; intros pre; cbn [accumulate].
  - split.
    + intros z. rewrite app_nil_r. split; [intros [= <-]; split; [reflexivity|]; intros [|? ?] ? ? [=]|].
      now intros [-> _].
    + intros f. split; [discriminate|]. intros (_ & [|? ?] & ? & ? & [=] & _).
  - assert (Ex : (total pre + x)%Z = total (pre ++ [x])) by (rewrite total_app; simpl; lia).
    rewrite Ex. destruct (_ && _) eqn:G.
    + apply int_range_b in G. destruct (IH (pre ++ [x])) as [D Fl]. split.
      * intros z. rewrite D, <- app_assoc. cbn [app]. split.
        -- intros [-> H]. split; [reflexivity|]. intros [|c a] y b E; injection E as <- E.
           ++ exact G.
           ++ specialize (H a y b E). rewrite <- app_assoc in H. exact H.
        -- intros [-> H]. split; [reflexivity|]. intros a y b E. rewrite <- app_assoc. cbn [app].
           apply (H (x :: a) y b). now rewrite E.
      * intros f. rewrite Fl. split.
        -- intros (-> & a & y & b & E & N). split; [reflexivity|]. exists (x :: a), y, b.
           split; [now rewrite E|]. rewrite <- app_assoc in N. exact N.
        -- intros (-> & [|c a] & y & b & E & N); injection E as <- E; [contradiction|].
           split; [reflexivity|]. exists a, y, b. split; [exact E|]. rewrite <- app_assoc. exact N.
    + assert (NG : ~ int_range (total (pre ++ [x]))) by (rewrite <- int_range_b, G; discriminate).
      split.
      * intros z. split; [discriminate|]. intros [_ H]. elim NG. apply (H [] x xs eq_refl).
      * intros f. split.
        -- intros [= <-]. split; [reflexivity|]. exists [], x, xs. now split.
        -- now intros [-> _].
Qed.

(** The command sum gives the sum, unless the sum of some first elements is out of the range of
    int; then its behaviour is undefined. *)
Theorem C76_sum_iff : forall xs z,
  sum_all xs = Done z <->
  z = fold_right Z.add 0%Z xs /\ forall s, prefix_sum xs s -> int_range s.
Proof.
  intros xs z. unfold sum_all. change 0%Z with (total []) at 1.
  rewrite (proj1 (accumulate_spec xs []) z). cbn [app]. split; intros [-> H]; (split; [reflexivity|]).
  - intros s (a & x & b & E & ->). now apply (H a x b).
  - intros a x b E. apply H. now exists a, x, b.
Qed.

Theorem C76_sum_fault_iff : forall xs f,
  sum_all xs = Fault f <-> f = Overflow /\ exists s, prefix_sum xs s /\ ~ int_range s.
Proof.
  intros xs f. unfold sum_all. change 0%Z with (total []) at 1.
  rewrite (proj2 (accumulate_spec xs []) f). cbn [app]. split.
  - intros (-> & a & x & b & E & N). split; [reflexivity|]. exists (total (a ++ [x])). split; [now exists a, x, b|exact N].
  - intros (-> & s & (a & x & b & E & ->) & N). split; [reflexivity|]. now exists a, x, b.
Qed.

(** ** The angle variable *)

Lemma split_last (s : bytes) : s = [] \/ exists t a, s = t ++ [a].
Proof. destruct s as [|c s]; [now left|right]. destruct (exists_last (l := c :: s)) as (t & a & E); [discriminate|]. eauto. Qed.

Lemma angle_convert_snoc uf t a :
  angle_convert uf (t ++ [a]) =
  (if Ascii.eqb a "r"%char then
     match from_value (float_ser uf) [t] with
     | Value x => Value (times x degrees_per_radian) | Error e => Error e
     end
   else from_value (float_ser uf) [if Ascii.eqb a "d"%char then t else t ++ [a]]).
Proof.
  unfold angle_convert. rewrite last_last, app_length. cbn [length].
  rewrite Nat.add_sub, firstn_app, Nat.sub_diag, firstn_all. cbn [firstn]. rewrite app_nil_r.
  destruct (t ++ [a]) eqn:E; [now destruct t|]. rewrite <- E.
  destruct (Ascii.eqb a "r"%char); [reflexivity|].
  destruct (Ascii.eqb a "d"%char); destruct (from_value _ _); reflexivity.
Qed.

(** The constant is 180 / pi, rounded twice. *)
Theorem C76_angle_constant : radian_in_degrees degrees_per_radian.
Proof. exact degrees_constant. Qed.

(** What an argument of the angle variable is converted to. *)
Theorem C76_angle_accept_iff : forall uf s x,
  angle_convert uf s = Value x <-> angle uf degrees_per_radian s x.
Proof.
  intros uf s x. destruct (split_last s) as [->|(t & a & ->)].
  - split; [discriminate|]. intros H. inversion H as [t y x' C P E|t x' C E|t a x' A B C E];
      apply app_eq_nil in E; now destruct E.
  - rewrite angle_convert_snoc. destruct (Ascii.eqb_spec a "r"%char) as [->|Nr].
    { destruct (from_value (float_ser uf) [t]) as [y|e] eqn:V.
      - apply float_ser_value in V. split.
        + intros [= <-]. apply (angle_radians uf _ t y); [exact V|].
          apply times_product; [eapply value_in_conversion; eauto|apply degrees_positive|reflexivity].
        + intros H. inversion H as [t' y' x' C P E|t' x' C E|t' a x' A B C E];
            apply app_inj_tail in E; destruct E as [-> E]; subst; try easy.
          apply float_ser_value in C. apply float_ser_value in V.
          assert (Q := eq_trans (eq_sym V) C). injection Q as ->.
          f_equal. apply times_product; [|apply degrees_positive|exact P].
          apply float_ser_value in V. eapply value_in_conversion; eauto.
      - split; [discriminate|]. intros H. inversion H as [t' y' x' C P E|t' x' C E|t' a x' A B C E];
          apply app_inj_tail in E; destruct E as [-> E]; subst; try easy.
        apply float_ser_value in C. assert (Q := eq_trans (eq_sym V) C). discriminate Q. }
    destruct (Ascii.eqb_spec a "d"%char) as [->|Nd].
    + rewrite float_ser_value. split; [apply angle_degrees|].
      intros H. inversion H as [t' y' x' C P E|t' x' C E|t' a x' A B C E];
        apply app_inj_tail in E; destruct E as [-> E]; subst; easy.
    + rewrite float_ser_value. split; [now apply angle_plain|].
      intros H. inversion H as [t' y' x' C P E|t' x' C E|t' a' x' A B C E];
        apply app_inj_tail in E; destruct E as [-> E]; subst; easy.
Qed.

Theorem C76_angle_error_iff : forall uf s e, no_nul s ->
  (angle_convert uf s = Error e <-> angle_error uf degrees_per_radian s e).
Proof.
  intros uf s e Ns. destruct (split_last s) as [->|(t & a & ->)].
  - cbn [angle_convert]. split.
    + intros [= <-]. constructor.
    + intros H. inversion H as [|s' t' e' A N C]; [reflexivity|]. subst.
      inversion A as [s' a' A' E|s' a' A1 A2 E]; apply app_eq_nil in E; now destruct E.
  - assert (Nt : no_nul t) by (intros I; apply Ns, in_app_iff; now left).
    assert (Ne : ~ angle_error uf degrees_per_radian (t ++ [a]) e \/ True) by now right. clear Ne.
    assert (K : forall u, angle_number (t ++ [a]) u ->
      (angle_error uf degrees_per_radian (t ++ [a]) e <->
       ~ is_float uf u /\ conversion_error (lit "float") [u] None e)).
    { intros u U. split.
      - intros H. inversion H as [E|s' u' e' A N C]; subst; [now destruct t|].
        enough (u' = u) by (subst; now split).
        inversion U as [s1 a1 A1 E1|s1 a1 B1 B2 E1]; inversion A as [s2 a2 A2 E2|s2 a2 D1 D2 E2];
          apply app_inj_tail in E1, E2; destruct E1, E2; subst; try reflexivity.
        + destruct A1; subst; contradiction.
        + destruct A2; subst; contradiction.
      - intros [N C]. now apply (angle_error_number uf _ _ u). }
    rewrite angle_convert_snoc. destruct (Ascii.eqb_spec a "r"%char) as [->|Nr].
    { rewrite (K t) by (constructor; now left). rewrite <- float_ser_error by exact Nt.
      assert (M : forall r : expected fval, (match r with Value x => Value (times x degrees_per_radian) | Error e => Error e end) = Error e <-> r = Error e)
        by (intros [y|d]; split; try discriminate; congruence).
      apply M. }
    destruct (Ascii.eqb_spec a "d"%char) as [->|Nd].
    + rewrite (K t) by (constructor; now right). now apply float_ser_error.
    + rewrite (K (t ++ [a])) by (now constructor). now apply float_ser_error.
Qed.

(** What the command does: if the argument is an angle, it sets and shows the variable.
    Otherwise it reports an error; the text that the function returns then is dropped. *)
Theorem C76_angle_command : forall p nm uf t pt sg catching d s name named val,
  bound (code p nm uf t pt) sg s name [angle_get; angle_set uf] -> name <> [] -> no_nul val ->
  exists x es r,
    exec_input (code p nm uf t pt) sg catching d s (Input name [[val]] named) =
      Done (set_world s (set_angle x (s_world s)),
            inl (Result (Input name [[val]] named) es r [])) /\
    (angle uf degrees_per_radian val x /\ es = [] /\ r = Some (printf_g x ++ lit " degrees") \/
     x = w_angle (s_world s) /\ r = None /\ exists e, es = [e] /\ angle_error uf degrees_per_radian val e).
Proof.
  intros p nm uf t pt sg catching d s name named val Bd Ne Nv.
  apply bound_two in Bd. destruct Bd as (n & a & b & G & A & B).
  rewrite (two_overloads (code p nm uf t pt) sg catching d s (Input name [[val]] named) n a b Ne G)
    by (rewrite ?A, ?B; reflexivity).
  cbn [i_args]. unfold invokeTrampoline. rewrite B.
  destruct (angle_convert uf val) as [x|e] eqn:E.
  - exists x, [], (Some (angle_text x)). split; [|left; split; [now apply C76_angle_accept_iff|now split]].
    simpl. unfold invoke. simpl. rewrite E. reflexivity.
  - exists (w_angle (s_world s)), [e], None. split; [|right; split; [reflexivity|]; split; [reflexivity|]; exists e; split; [reflexivity|now apply C76_angle_error_iff]].
    simpl. unfold invoke. simpl. rewrite E. simpl.
    replace (set_angle (w_angle (s_world s)) (s_world s)) with (s_world s) by now destruct (s_world s).
    now rewrite set_world_same.
Qed.

(** The text shown is never accepted. *)
Theorem C76_angle_read_back_refuted : forall uf v, exists e, angle_convert uf (angle_text v) = Error e.
Proof.
  intros uf v. destruct (angle_convert uf (angle_text v)) as [x|e] eqn:E; [exfalso|eauto].
  unfold angle_text in E. change (lit " degrees") with (lit " degree" ++ ["s"%char]) in E.
  rewrite app_assoc, angle_convert_snoc in E. cbn [Ascii.eqb Bool.eqb] in E. apply float_ser_value in E.
  exact (conversion_end _ _ _ E).
Qed.

(** A number is not always taken as it is: 0x1d is 29, but the d is taken as the unit. *)
Theorem C76_angle_plain_refuted : forall uf, exists s x y,
  conversion binary32 uf s x /\ angle_convert uf s = Value y /\ x <> y.
Proof.
  intros uf. exists (lit "0x1d"), (Fin false 15204352 (-19)), (Fin false 8388608 (-23)).
  split; [apply float_read; destruct uf; now vm_compute|].
  split; [destruct uf; now vm_compute|discriminate].
Qed.

(** ** The commands of the examples *)

Lemma register_commands : forall sg (L : option (bytes -> outcome (expected input))) (w : world), exists s,
  UserTypes.register sg (State L empty_map 0 w) commands = Done s /\ s_world s = w /\ s_lexer s = L /\
  forall n fs, In (n, fs) commands -> exists cmd, get sg s n = Done (Some cmd) /\ map snd (c_functors cmd) = fs.
Proof.
  intros sg L w. destruct sg.
  all: eexists; split; [vm_compute; reflexivity|].
  all: split; [reflexivity|]; split; [reflexivity|].
  all: intros n fs H; cbn [commands In] in H.
  all: repeat (destruct H as [H|H]; [injection H as <- <-; eexists; (split; [vm_compute; reflexivity|reflexivity])|]).
  all: destruct H.
Qed.

Theorem C76_commands : forall p nm uf t pt sg w, exists s,
  examples_state sg w = Done s /\ s_world s = w /\ s_lexer s = Some (parse_input sg default_cfg) /\
  bound (code p nm uf t pt) sg s (lit "particles.last_particle_pos") (variable (vec2_serializer uf) w_pos set_pos) /\
  bound (code p nm uf t pt) sg s (lit "entities.focused_entity") (variable (entity_serializer p nm t) w_focus set_focus) /\
  bound (code p nm uf t pt) sg s (lit "pivot") (variable (point_serializer uf pt) w_pivot set_pivot) /\
  bound (code p nm uf t pt) sg s (lit "direction") [angle_get; angle_set uf].
Proof.
  intros p nm uf t pt sg w.
  destruct (register_commands sg (Some (parse_input sg default_cfg)) w) as (s & E & Hw & Hl & B).
  exists s. split; [exact E|]. split; [exact Hw|]. split; [exact Hl|].
  assert (K : forall n fs, In (n, fs) commands -> bound (code p nm uf t pt) sg s n (map (code p nm uf t pt) fs)).
  { intros n fs I. destruct (B n fs I) as (cmd & G & M). exists cmd. split; [exact G|]. now rewrite <- M, map_map. }
  split; [|split; [|split]].
  - apply (K _ [FPosGet; FPosSet]). now left.
  - apply (K _ [FFocusGet; FFocusSet]). right. right. now left.
  - apply (K _ [FPivotGet; FPivotSet]). right. right. right. now left.
  - apply (K _ [FAngleGet; FAngleSet]). do 4 right. now left.
Qed.

(** particles.spawn sets both components if both arguments are pairs; otherwise it changes
    nothing and reports an error for each argument that is none. *)
Theorem C76_spawn : forall p nm uf t pt sg catching d s name named a b,
  bound (code p nm uf t pt) sg s name [code p nm uf t pt FSpawn] -> name <> [] ->
  value_no_nul a -> value_no_nul b ->
  exists w es,
    exec_input (code p nm uf t pt) sg catching d s (Input name [a; b] named) =
      Done (set_world s w, inl (Result (Input name [a; b] named) es None [])) /\
    ((exists x y, denotes_pair uf a x /\ denotes_pair uf b y /\ es = [] /\
        w = World x y (w_focus (s_world s)) (w_pivot (s_world s)) (w_angle (s_world s))) \/
     w = s_world s /\ es <> [] /\ exists es1 es2, es = es1 ++ es2 /\
       (es1 = [] /\ (exists x, denotes_pair uf a x) \/ exists e, es1 = [e] /\ pair_error uf (lit "Vec2") a e) /\
       (es2 = [] /\ (exists y, denotes_pair uf b y) \/ exists e, es2 = [e] /\ pair_error uf (lit "Vec2") b e)).
Proof.
  intros p nm uf t pt sg catching d s name named a b ([n fs] & G & M) Ne Na Nb.
  cbn [c_functors] in M. destruct fs as [|f [|? ?]]; try discriminate. injection M as M.
  assert (Nn : no_nul (lit "Vec2")) by now apply no_nul_lit.
  assert (X : exec_input (code p nm uf t pt) sg catching d s (Input name [a; b] named) =
    match pair_fromString uf (lit "Vec2") a, pair_fromString uf (lit "Vec2") b with
    | Value x, Value y =>
        Done (set_world s (World x y (w_focus (s_world s)) (w_pivot (s_world s)) (w_angle (s_world s))),
              inl (Result (Input name [a; b] named) [] None []))
    | Value _, Error e | Error e, Value _ => Done (s, inl (Result (Input name [a; b] named) [e] None []))
    | Error e, Error e' => Done (s, inl (Result (Input name [a; b] named) [e; e'] None []))
    end).
  { unfold exec_input, execute_input, execute_ctx. simpl cc_input. cbn [i_name].
    destruct name as [|c0 n0]; [easy|]. rewrite G. simpl bind. simpl c_functors.
    unfold dispatch. rewrite !arity_params, M. simpl cc_input. cbn [i_args code f_params length Nat.eqb].
    unfold invokeTrampoline. rewrite M. cbn [code]. simpl.
    destruct (pair_fromString uf _ a) as [x|e]; destruct (pair_fromString uf _ b) as [y|e'];
      unfold invoke; simpl; reflexivity. }
  rewrite X. clear X.
  destruct (pair_fromString uf (lit "Vec2") a) as [x|e] eqn:A;
    destruct (pair_fromString uf (lit "Vec2") b) as [y|e'] eqn:B.
  - eexists _, []. split; [reflexivity|]. left. apply pair_value in A, B. exists x, y. auto.
  - exists (s_world s), [e']. split; [now rewrite set_world_same|]. right. apply pair_value in A.
    apply pair_error_made in B; auto. split; [reflexivity|]. split; [discriminate|].
    exists [], [e']. split; [reflexivity|]. split; [left|right]; eauto.
  - exists (s_world s), [e]. split; [now rewrite set_world_same|]. right. apply pair_value in B.
    apply pair_error_made in A; auto. split; [reflexivity|]. split; [discriminate|].
    exists [e], []. split; [reflexivity|]. split; [right|left]; eauto.
  - exists (s_world s), [e; e']. split; [now rewrite set_world_same|]. right.
    apply pair_error_made in A, B; auto. split; [reflexivity|]. split; [discriminate|].
    exists [e], [e']. split; [reflexivity|]. split; right; eauto.
Qed.

(** ** Examples *)

Definition one : fval := Fin false 8388608 (-23).
Definition ex_world : world := World (one, Fin true 12582912 (-22)) (one, one) 5 (one, one) one.

Example C76_ex_vec2 :
  to_text (vec2_serializer true) (one, Fin true 12582912 (-22)) = lit "(1.000000, -3.000000)" /\
  from_value (vec2_serializer true) [lit "1"; lit "x"] =
    Error (lit "Unable to convert '1 x' to type 'Vec2': Unable to convert 'x' to type 'float'") /\
  from_value (vec2_serializer true) [lit "1"] =
    Error (lit "Unable to convert '1' to type 'Vec2': Expected 2 subvalues, got 1") /\
  particle_text (lit "p1") (one, Fin true 12582912 (-22)) (Fin false 8388608 (-22), one) =
    lit "{'p1': p (1,-3), v (2,1)}".
Proof. repeat split; vm_compute; reflexivity. Qed.

Example C76_ex_names :
  bare_name (lit "particles.last_particle_pos") /\ bare_name (lit "pivot") /\
  value_in binary32 one /\ value_in binary32 (Fin true 12582912 (-22)) /\ not_tiny one /\ at_least_16 (Fin false 8388608 (-19)).
Proof.
  assert (B : forall s, s <> [] -> forallb (fun c => let x := nat_of_ascii c in
    (97 <=? x) && (x <=? 122) || (x =? 46) || (x =? 95)) s = true -> bare_name s).
  { intros s N H. split; [exact N|]. apply Forall_forall. intros c I. rewrite forallb_forall in H.
    specialize (H c I). cbv zeta in H. rewrite !orb_true_iff, andb_true_iff, !Nat.leb_le, !Nat.eqb_eq in H.
    destruct H as [[H|H]|H].
    - left. right. right. now left.
    - right. left. rewrite <- (ascii_nat_embedding c), H. reflexivity.
    - left. right. left. rewrite <- (ascii_nat_embedding c), H. reflexivity. }
  split; [now apply B|]. split; [now apply B|].
  split; [unfold one, value_in, magnitude_in; cbn; lia|].
  split; [unfold value_in, magnitude_in; cbn; lia|].
  split; [right; apply Qle_bool_iff; now vm_compute|apply Qle_bool_iff; now vm_compute].
Qed.

Example C76_ex_entity :
  let T := entity_serializer (Platform true Long64) (Naming true true) CULong in
  from_value T [lit "7"] = Value 7%Z /\ to_text T 7%Z = lit "EntityId{7}" /\
  from_value T [lit "EntityId{7}"] =
    Error (lit "Unable to convert 'EntityId{7}' to type 'EntityId': Unable to convert 'EntityId{7}' to type 'uint64'").
Proof. repeat split; vm_compute; reflexivity. Qed.

Example C76_ex_sum :
  from_value (array_serializer ex_int) [lit "1"; lit "-2"] = Value [1; -2]%Z /\
  from_value (array_serializer ex_int) [lit "1"; lit "x"] =
    Error (lit "Unable to convert '1 x' to type 'DynamicArray<int>': Unable to convert 'x' to type 'int'") /\
  sum_all [1; -2; 5]%Z = Done 4%Z /\
  sum_all [2147483647; 1; -1]%Z = Fault Overflow /\ sum_all [2147483647; -1; 1]%Z = Done 2147483647%Z.
Proof. repeat split; vm_compute; reflexivity. Qed.

(** 1 radian is 57.2958 degrees. *)
Example C76_ex_angle :
  angle_text one = lit "1 degrees" /\
  (match angle_convert true (lit "1r") with Value x => angle_text x | Error e => e end) = lit "57.2958 degrees" /\
  angle_convert true (lit "1d") = Value one /\
  angle_convert true (lit "1") = Value one /\
  angle_convert true (lit "r") = Error (lit "Unable to convert '' to type 'float'").
Proof. repeat split; vm_compute; reflexivity. Qed.

(** * Assumptions *)
Print Assumptions C76_pair_accept_iff.
Print Assumptions C76_pair_error_iff.
Print Assumptions C76_vec2_text.
Print Assumptions C76_vec2_read_back.
Print Assumptions C76_vec2_exact_refuted.
Print Assumptions C76_point_refuted.
Print Assumptions C76_point_read_back.
Print Assumptions C76_particle_text.
Print Assumptions C76_entity_accept_iff.
Print Assumptions C76_entity_error.
Print Assumptions C76_entity_text.
Print Assumptions C76_entity_read_back_refuted.
Print Assumptions C76_array_accept_iff.
Print Assumptions C76_array_error_iff.
Print Assumptions C76_sum_iff.
Print Assumptions C76_sum_fault_iff.
Print Assumptions C76_angle_constant.
Print Assumptions C76_angle_accept_iff.
Print Assumptions C76_angle_error_iff.
Print Assumptions C76_angle_command.
Print Assumptions C76_angle_read_back_refuted.
Print Assumptions C76_angle_plain_refuted.
Print Assumptions C76_commands.
Print Assumptions C76_spawn.
