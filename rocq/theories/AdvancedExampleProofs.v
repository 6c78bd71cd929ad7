(** Lemmas for C82: registries that handlers extend, and the handlers of examples/advanced. *)
From Coq Require Import Ascii String NArith ZArith Bool PeanoNat Lia List.
Import ListNotations.
From Verif Require Import Util Base StringConv StringConvSpec StringConvProofs SerializerSpec Serializer
  SerializerProofs Lexer UMap UMapSpec UMapMore P_UMap Exec ExecSpec ExecProofs ExecKinds P_Exec P_Exec2 P_Reentry P_Serializer
  FloatConv FloatConvSpec FloatSerializer UserTypes UserTypesSpec PrintfProofs
  NamedExample NamedExampleSpec NamedExampleProofs P_NamedExample AdvancedExample AdvancedExampleSpec.

Local Notation length := List.length.

(** * Registries that only grow *)

Section Registry.
Context {W F : Type}.
Variable sg : bool.

(** The commands are found; every function object has a storage of its own, older than the next
    one. *)
Definition orderly (s : state W F) : Prop :=
  (exists h, holds sg s h) /\
  (forall n cmd g, Exec.get sg s n = Done (Some cmd) -> In g (c_functors cmd) -> fst g < s_next s) /\
  (forall n n' cmd cmd' g g', Exec.get sg s n = Done (Some cmd) -> Exec.get sg s n' = Done (Some cmd') ->
     In g (c_functors cmd) -> In g' (c_functors cmd') -> fst g = fst g' -> n = n').

Lemma fresh_orderly w : orderly (fresh_bindings sg w).
Proof.
  split; [exists []; apply C50_fresh_holds|].
  split; intros; rewrite (holds_get sg _ [] (C50_fresh_holds sg w)) in *; discriminate.
Qed.

Lemma orderly_world s w : orderly s -> orderly (set_world s w).
Proof. exact (fun H => H). Qed.

Lemma combine_fst {A} (l : list A) : forall n g, In g (combine (seq n (length l)) l) -> n <= fst g < n + length l.
Proof.
  induction l as [|x l IH]; intros n g I; cbn in I; [destruct I|]. destruct I as [<-|I]; cbn; [lia|].
  apply IH in I. lia.
Qed.
Lemma combine_snd {A} (l : list A) : forall n, map snd (combine (seq n (length l)) l) = l.
Proof. induction l as [|x l IH]; intros n; cbn; [reflexivity|]. now rewrite IH. Qed.

Lemma orderly_add s name fs : orderly s -> exists s1 cmd,
  add sg s name fs = Done s1 /\ orderly s1 /\ s_lexer s1 = s_lexer s /\ s_world s1 = s_world s /\
  s_next s <= s_next s1 /\
  Exec.get sg s1 name = Done (Some cmd) /\ map snd (c_functors cmd) = fs /\
  (forall g, In g (c_functors cmd) -> s_next s <= fst g) /\
  (forall other, other <> name -> Exec.get sg s1 other = Exec.get sg s other).
Proof.
  intros ((h & H) & L & U).
  set (cmd := Command name (combine (seq (s_next s) (length fs)) fs)).
  assert (Hh : harmless_history bytes_eqb (hash_view sg) (h ++ [Add name cmd]))
    by now apply harmless_snoc_add, H.
  destruct (harmless_faithful bytes_eqb (hash_view sg) bytes_eqb_spec _ Hh) as (m & E & Fa).
  assert (Q : insertOrAssign bytes_eqb (hash_view sg) (s_commands s) name cmd = Done m).
  { unfold run in E. rewrite (run_from_app sg) in E. destruct H as [H _]. unfold run in H.
    rewrite H in E. simpl in E.
    destruct (insertOrAssign _ _ _ _ _); simpl in E; [|discriminate]. congruence. }
  set (s1 := State (s_lexer s) m (s_next s + length fs) (s_world s)).
  assert (Hs : holds sg s1 (h ++ [Add name cmd])) by (split; [exact E|exact Hh]).
  assert (G : Exec.get sg s1 name = Done (Some cmd)).
  { rewrite (holds_get sg _ _ Hs). unfold ideal. rewrite fold_left_app. simpl. now rewrite bytes_eqb_refl. }
  assert (O : forall other, other <> name -> Exec.get sg s1 other = Exec.get sg s other).
  { intros other N. rewrite (holds_get sg _ _ Hs), (holds_get sg _ _ H). unfold ideal.
    rewrite fold_left_app. simpl. destruct (bytes_eqb_spec other name); [easy|reflexivity]. }
  exists s1, cmd. split; [unfold add; fold cmd; rewrite Q; reflexivity|].
  assert (B : forall n cmd' g, Exec.get sg s1 n = Done (Some cmd') -> In g (c_functors cmd') ->
    n = name /\ s_next s <= fst g < s_next s + length fs \/ n <> name /\ Exec.get sg s n = Done (Some cmd') /\ fst g < s_next s).
  { intros n cmd' g Gn I. destruct (bytes_eqb_spec n name) as [->|N].
    - left. split; [reflexivity|]. rewrite G in Gn. injection Gn as <-. exact (combine_fst fs _ g I).
    - right. split; [exact N|]. rewrite (O n N) in Gn. split; [exact Gn|]. exact (L _ _ _ Gn I). }
  split; [split; [now exists (h ++ [Add name cmd])|split]|].
  - intros n cmd' g Gn I. change (s_next s1) with (s_next s + length fs).
    destruct (B n cmd' g Gn I) as [(_ & K)|(_ & _ & K)]; lia.
  - intros n n' c c' g g' Gn Gn' I I' Ee.
    destruct (B _ _ _ Gn I) as [(N & K)|(N & K1 & K)]; destruct (B _ _ _ Gn' I') as [(N' & K')|(N' & K1' & K')]; try lia.
    + congruence.
    + exact (U _ _ _ _ _ _ K1 K1' I I' Ee).
  - repeat (split; [try reflexivity; try exact G; try (cbn; lia)|]).
    + apply combine_snd.
    + intros g I. apply (combine_fst fs (s_next s) g I).
    + exact O.
Qed.

(** Storage is live exactly while a command has it. *)
Lemma live_iff s sid : orderly s ->
  (is_live s sid = true <-> exists n cmd g, Exec.get sg s n = Done (Some cmd) /\ In g (c_functors cmd) /\ fst g = sid).
Proof.
  intros ((h & H) & _). rewrite is_live_stored. split.
  - intros (n & f & I & J). exists (n_key n), (n_val n), (sid, f). split; [|split; [exact J|reflexivity]].
    destruct (C25_iteration_partial bytes (command F) bytes_eqb (hash_view sg) names_ok h (proj2 H)) as (m & E & (_ & K) & _).
    destruct H as [E' Hh]. assert (m = s_commands s) as -> by congruence.
    rewrite (holds_get sg s h (conj E' Hh)). f_equal. apply K. unfold iterate. apply in_map_iff. exists n. now split.
  - intros (n & cmd & g & G & I & <-). exact (get_stored sg s n cmd g G I).
Qed.

Lemma live_found s n cmd g : orderly s -> Exec.get sg s n = Done (Some cmd) -> In g (c_functors cmd) ->
  is_live s (fst g) = true.
Proof. intros O G I. apply (live_iff s _ O). now exists n, cmd, g. Qed.

(** After a command is replaced its old function objects are gone. *)
Lemma replaced_dead s n cmd g fs s1 : orderly s -> Exec.get sg s n = Done (Some cmd) -> In g (c_functors cmd) ->
  add sg s n fs = Done s1 -> is_live s1 (fst g) = false.
Proof.
  intros O G I E. destruct (orderly_add s n fs O) as (s1' & c1 & E1 & O1 & _ & _ & _ & G1 & _ & B1 & Ot).
  rewrite E in E1. injection E1 as <-.
  destruct (is_live s1 (fst g)) eqn:L; [exfalso|reflexivity].
  apply (live_iff s1 _ O1) in L. destruct L as (n' & c' & g' & G' & I' & Ee).
  destruct O as (_ & Lt & U). assert (K := Lt _ _ _ G I).
  destruct (bytes_eqb_spec n' n) as [->|N].
  - rewrite G1 in G'. injection G' as <-. apply B1 in I'. lia.
  - rewrite (Ot n' N) in G'. apply N. exact (U _ _ _ _ _ _ G' G I' I Ee).
Qed.

Definition binds (s : state W F) (n : bytes) (fs : list F) : Prop :=
  exists cmd, Exec.get sg s n = Done (Some cmd) /\ map snd (c_functors cmd) = fs.

Lemma binds_one s n f : binds s n [f] -> exists c sid, Exec.get sg s n = Done (Some (Command c [(sid, f)])).
Proof.
  intros ([c fs] & G & M). cbn in M. destruct fs as [|[sid g] [|? ?]]; try discriminate. injection M as <-. eauto.
Qed.
Lemma binds_two s n f g : binds s n [f; g] ->
  exists c a b, Exec.get sg s n = Done (Some (Command c [(a, f); (b, g)])).
Proof.
  intros ([c fs] & G & M). cbn in M. destruct fs as [|[a f'] [|[b g'] [|? ?]]]; try discriminate. injection M as <- <-. eauto.
Qed.
End Registry.

(** * Executing a chosen overload *)

Section Execute.
Context {W F : Type}.
Variable code : F -> functor W F.
Variables sg catching : bool.
Variable d : nat.
Local Notation exec := (exec_input code sg catching d).
Local Notation run := (run_prog sg (nested_exec code sg catching d)).

Lemma exec_body s name pos nd cmd g vs s' es out (v : rcarrier (f_result (code (snd g)))) txt :
  name <> [] -> Exec.get sg s name = Done (Some cmd) -> chosen code (c_functors cmd) (length pos) g ->
  converts (f_params (code (snd g))) pos vs ->
  run (fst g) s (ctx (Input name pos nd) [] []) (f_body (code (snd g)) vs) = Done (s', ctx (Input name pos nd) es out, inl v) ->
  rtext (f_result (code (snd g))) v = Done txt ->
  exec s (Input name pos nd) =
  Done (s', inl (Result (Input name pos nd) es (match es with [] => txt | _ => None end) out)).
Proof.
  intros Ne G Ch Cv R T. unfold exec_input.
  rewrite (input_chosen code sg catching _ s (Input name pos nd) cmd g Ne G Ch).
  cbn [i_name i_args i_named]. rewrite (invoke_good sg _ _ _ _ _ _ _ vs Cv).
  change (ctx_of name pos [] nd) with (ctx (Input name pos nd) [] []). rewrite R. cbn [bind]. rewrite T. cbn [bind].
  unfold cc_hasErrors. cbn [ctx cc_result r_errors]. destruct es; reflexivity.
Qed.

Lemma exec_fault s name pos nd cmd g vs f :
  name <> [] -> Exec.get sg s name = Done (Some cmd) -> chosen code (c_functors cmd) (length pos) g ->
  converts (f_params (code (snd g))) pos vs ->
  run (fst g) s (ctx (Input name pos nd) [] []) (f_body (code (snd g)) vs) = Fault f ->
  exec s (Input name pos nd) = Fault f.
Proof.
  intros Ne G Ch Cv R. unfold exec_input.
  rewrite (input_chosen code sg catching _ s (Input name pos nd) cmd g Ne G Ch).
  cbn [i_name i_args i_named]. rewrite (invoke_good sg _ _ _ _ _ _ _ vs Cv).
  change (ctx_of name pos [] nd) with (ctx (Input name pos nd) [] []). rewrite R. reflexivity.
Qed.
End Execute.

Lemma chosen_head {W F} (code : F -> functor W F) g r n :
  length (f_params (code (snd g))) = n -> chosen code (g :: r) n g.
Proof. intros E. exists [], r. repeat split; [exact E|]. intros ? []. Qed.
Lemma chosen_next {W F} (code : F -> functor W F) a g r n :
  length (f_params (code (snd a))) <> n -> length (f_params (code (snd g))) = n -> chosen code (a :: g :: r) n g.
Proof. intros N E. exists [a], r. repeat split; [exact E|]. intros ? [<-|[]]. exact N. Qed.

(** * Entities *)

Lemma find_from_at l id : forall i j, find_from i l id = Some j ->
  exists a e b, located l id a e b /\ j = i + length a.
Proof.
  induction l as [|x l IH]; intros i j H; cbn in H; [discriminate H|].
  destruct (bytes_eqb_spec (en_id x) id) as [E|N].
  - injection H as <-. exists [], x, l. repeat split; [exact E|now intros []|cbn; lia].
  - destruct (IH _ _ H) as (a & e & b & (-> & E & O) & ->). exists (x :: a), e, b.
    repeat split; [exact E| |cbn; lia]. cbn. intros [K|K]; [now apply N|now apply O].
Qed.
Lemma find_from_none l id : forall i, find_from i l id = None <-> missing l id.
Proof.
  unfold missing. induction l as [|x l IH]; intros i; cbn; [split; [now intros _ []|reflexivity]|].
  destruct (bytes_eqb_spec (en_id x) id) as [E|N].
  - split; [discriminate|]. intros K. elim K. now left.
  - rewrite IH. split; intros K; [intros [J|J]; [now apply N|now apply K]|tauto].
Qed.

Lemma located_find l id a e b : located l id a e b -> forall i, find_from i l id = Some (i + length a).
Proof.
  intros (-> & E & O). induction a as [|x a IH]; intros i; cbn.
  - destruct (bytes_eqb_spec (en_id e) id); [f_equal; lia|easy].
  - cbn in O. destruct (bytes_eqb_spec (en_id x) id) as [K|K]; [elim O; now left|].
    rewrite IH by tauto. f_equal. lia.
Qed.

Lemma find_located l id a e b : located l id a e b -> find_entity l id = Some (length a).
Proof. intros H. exact (located_find l id a e b H 0). Qed.
Lemma find_missing l id : missing l id <-> find_entity l id = None.
Proof. symmetry. apply find_from_none. Qed.
Lemma located_or_missing l id : (exists a e b, located l id a e b) \/ missing l id.
Proof.
  destruct (find_entity l id) as [j|] eqn:E; [left|right; now apply find_missing].
  destruct (find_from_at l id 0 j E) as (a & e & b & H & _). eauto.
Qed.
Lemma located_nth l id a e b : located l id a e b -> nth_error l (length a) = Some e.
Proof. intros (-> & _). rewrite nth_error_app2, Nat.sub_diag by lia. reflexivity. Qed.
Lemma change_at a e b f : change (a ++ e :: b) (length a) f = a ++ f e :: b.
Proof. induction a as [|x a IH]; cbn; [reflexivity|]. now rewrite IH. Qed.
Lemma located_change l id a e b f : located l id a e b -> change l (length a) f = a ++ f e :: b.
Proof. intros (-> & _). apply change_at. Qed.

Lemma tab3 a b c t : tabulated [a; b; c] t <-> t = a ++ tab :: b ++ tab :: c.
Proof.
  unfold tabulated. assert (J : joined [tab] [a; b; c] (a ++ [tab] ++ b ++ [tab] ++ c)).
  { repeat (apply joined_cons; [discriminate|]). apply joined_one. }
  split; [intros H; exact (joined_det _ _ _ _ H J)|intros ->; exact J].
Qed.

Lemma rows_iff l r : entity_rows l r <->
  r = concat (map (fun e => (c_str (en_id e) ++ tab :: entity_line e) ++ [newline]) l).
Proof.
  set (row := fun e : entity => (c_str (en_id e) ++ tab :: entity_line e) ++ [newline]).
  assert (A : forall x y : bytes, (x ++ [newline]) ++ y = x ++ nl :: y) by (intros x y; now rewrite <- app_assoc).
  revert r. induction l as [|e l IH]; intros r; cbn [map concat].
  - split; [now inversion 1|intros ->; constructor].
  - unfold row at 1. rewrite A. split.
    + inversion 1 as [|? ? i n p t r' Bi Bn Bp T R]; subst. apply IH in R. apply tab3 in T. subst.
      now rewrite (before_nul_det _ _ Bi), (before_nul_det _ _ Bn), (before_nul_det _ _ Bp).
    + intros ->. econstructor; try apply before_nul_c_str; [now apply tab3|now apply IH].
Qed.

Lemma rows_total l : exists r, entity_rows l r.
Proof. eexists. now apply rows_iff. Qed.
Lemma head_iff t : entity_head t <->
  t = (lit "ID" ++ tab :: lit "Name" ++ tab :: lit "Payload") ++
      newline :: (lit "--" ++ tab :: lit "----" ++ tab :: lit "-------") ++ [newline].
Proof.
  split.
  - intros (a & b & A & B & ->). cbn [map] in A, B. apply tab3 in A, B. now subst.
  - intros ->. eexists _, _. cbn [map]. split; [now apply tab3|]. split; [now apply tab3|]. reflexivity.
Qed.

Lemma there_iff sc id : there sc id <-> existsb (Nat.eqb (v_text id)) (gone sc) = false.
Proof.
  unfold there. rewrite <- not_true_iff_false, existsb_exists. split; intros H K; apply H.
  - destruct K as (x & I & E). apply Nat.eqb_eq in E. now subst.
  - exists (v_text id). split; [exact K|apply Nat.eqb_refl].
Qed.
Lemma gone_iff sc id : In (v_text id) (gone sc) <-> existsb (Nat.eqb (v_text id)) (gone sc) = true.
Proof.
  rewrite existsb_exists. split.
  - intros K. exists (v_text id). split; [exact K|apply Nat.eqb_refl].
  - intros (x & I & E). apply Nat.eqb_eq in E. now subst.
Qed.

(** Names of commands for variables. *)
Lemma suffixed_other var suffix : In suffix [lit ".id"; lit ".name"; lit ".payload"] ->
  var ++ suffix <> lit "entities.create_entity_variable".
Proof.
  intros I E. apply (f_equal (fun l => firstn 2 (rev l))) in E. rewrite rev_app_distr in E.
  destruct I as [<-|[<-|[<-|[]]]]; vm_compute in E; discriminate E.
Qed.

(** * The newest definition *)

Lemma means_or_not sc name : (exists m, means sc name m) \/ meaningless sc name.
Proof.
  unfold means, meaningless. induction (defined sc) as [|[n m] l IH]; [right; intros []|].
  destruct (bytes_eqb_spec n name) as [->|N].
  - left. exists m, [], l. split; [reflexivity|now intros []].
  - destruct IH as [(m' & a & b & -> & O)|No].
    + left. exists m', ((n, m) :: a), b. split; [reflexivity|]. cbn. intros [K|K]; [now apply N|now apply O].
    + right. cbn. intros [K|K]; [now apply N|now apply No].
Qed.

Lemma means_cons n m l sc name m' : defined sc = (n, m) :: l ->
  (means sc name m' <-> n = name /\ m = m' \/ n <> name /\ exists a b, l = a ++ (name, m') :: b /\ ~ In name (map fst a)).
Proof.
  intros E. unfold means. rewrite E. split.
  - intros ([|[n0 m0] a] & b & H & O); cbn in H; injection H; intros; subst.
    + now left.
    + right. cbn in O. split; [intros ->; apply O; now left|]. exists a, b. split; [reflexivity|tauto].
  - intros [(-> & ->)|(N & a & b & -> & O)].
    + exists [], l. split; [reflexivity|now intros []].
    + exists ((n, m) :: a), b. split; [reflexivity|]. cbn. intros [K|K]; [now apply N|now apply O].
Qed.

Lemma means_det sc name m m' : means sc name m -> means sc name m' -> m = m'.
Proof.
  unfold means. induction (defined sc) as [|[n x] l IH]; intros (a & b & E & O) (a' & b' & E' & O').
  - now destruct a.
  - destruct a as [|[? ?] a], a' as [|[? ?] a']; cbn in E, E'; injection E; injection E'; intros; subst.
    + congruence.
    + elim O'. now left.
    + elim O. now left.
    + apply IH; [exists a, b|exists a', b']; cbn in O, O'; (split; [congruence|tauto]).
Qed.
