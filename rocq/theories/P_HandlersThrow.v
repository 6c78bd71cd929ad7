(** Registering commands when memory runs out (C67). *)
From Coq Require Import Ascii String NArith ZArith Bool PeanoNat Lia Permutation List.
From Verif Require Import Util Base UMap UMapSpec UMapProofs UMapIter UMapRel Handlers HandlersSpec HandlersProofs
  HandlersThrow HandlersThrowSpec HandlersThrowProofs P_Handlers.
Import ListNotations.
Local Notation length := List.length.

Section Throw.
Context {F : Type}.
Variable types : F -> list bytes.
Variable hash : bytes -> Z.
(** Which allocations throw. *)
Variable oom : nat -> bool.
Local Notation runs_t := (runs_t types hash oom).
Local Notation step_t := (step_t types hash oom).

Lemma reach_t (os : list (op F)) w ts : runs_t start 0 os = Done (w, ts) ->
  exists es s, Forall2 (fun o e => e <> Normal -> allocates o = true) os es /\ ts = map threw_s es /\
    runs_e hash no_values os es = Done s /\ world_rel types w s.
Proof.
  intros E. destruct (runs_t_rel types hash oom os start 0 no_values (start_rel types)) as (es & A & B).
  rewrite E in B. inversion B as [? s [T R] E1 E2|]; subst. cbn [fst snd] in *. exists es, s. auto.
Qed.

(** ** What a program does *)

(** Only statements that allocate end with an exception; every lookup afterwards reads,
    through the pointers, what the program on values finds that is told how each statement
    ended. *)
Theorem C67_lookup : forall (os : list (op F)) w ts, runs_t start 0 os = Done (w, ts) ->
  exists es s, ts = map threw_s es /\ Forall2 (fun o e => e <> Normal -> allocates o = true) os es /\
    runs_e hash no_values os es = Done s /\
    forall b name, lookup_h hash w b name = reads types name (lookup_s hash s b name).
Proof.
  intros os w ts E. destruct (reach_t os w ts E) as (es & s & A & T & Es & R).
  exists es, s. split; [exact T|]. split; [exact A|]. split; [exact Es|].
  intros b name. now apply lookup_rel.
Qed.

(** If no command is removed, registries are functions from names to handlers on which a
    statement that throws has no effect; [add(name, move(v))] has emptied [v]. *)
Theorem C67_as_if_not_called : forall (os : list (op F)) w ts,
  Forall (fun o => removes o = false) os -> runs_t start 0 os = Done (w, ts) ->
  exists i, runs_i no_ideals os ts = Done i /\
    forall b name, lookup_h hash w b name = reads types name (lookup_i i b name).
Proof.
  intros os w ts Nr E. destruct (reach_t os w ts E) as (es & s & A & T & Es & R). subst ts.
  destruct (ideal_runs hash os es no_values no_ideals s) as (i & Ei & Ri); auto.
  { split; [reflexivity|constructor]. }
  exists i. split; [exact Ei|]. intros b name. rewrite (lookup_rel types hash w s b name R).
  now rewrite (ideal_lookup hash s i b name Ri).
Qed.

(** Whatever throws, the objects alive are those in the variables, each once. *)
Theorem C67_alive : forall (os : list (op F)) w ts, runs_t start 0 os = Done (w, ts) ->
  exists es s, ts = map threw_s es /\ runs_e hash no_values os es = Done s /\
  Permutation (map snd (h_cells (funcs (w_mem w)))) (values_handlers s) /\
  length (h_cells (stores (w_mem w))) = length (values_handlers s) /\
  Permutation (map snd (h_cells (keys (w_mem w)))) (values_names s).
Proof.
  intros os w ts E. destruct (reach_t os w ts E) as (es & s & A & T & Es & R).
  exists es, s. split; [exact T|]. split; [exact Es|]. now apply live_rel in R.
Qed.

(** Nothing leaks. *)
Theorem C67_no_leak : forall (os : list (op F)) w ts, runs_t start 0 os = Done (w, ts) ->
  (forall v, In v (w_vecs w) -> v = None) -> (forall b, In b (w_maps w) -> b = None) ->
  h_cells (funcs (w_mem w)) = [] /\ h_cells (stores (w_mem w)) = [] /\ h_cells (keys (w_mem w)) = [].
Proof.
  intros os w ts E NV NM. destruct (reach_t os w ts E) as (es & s & _ & _ & _ & R).
  destruct (live_rel types w s R) as (A & B & C). destruct R as [G _ Rv Rm _].
  assert (SM : forall m, In m (s_maps s) -> m = None).
  { clear - Rm NM. intros m I. apply In_nth_error in I. destruct I as (j & J).
    revert j J NM. induction Rm as [|x y l l' H _ IH]; intros [|j] J NM; try discriminate; cbn in J.
    - injection J as <-. rewrite (NM x (or_introl eq_refl)) in H. now destruct y.
    - apply (IH j J). intros b Ib. apply NM. now right. }
  assert (SV : forall v, In v (s_vecs s) -> v = None).
  { clear - Rv NV. intros m I. apply In_nth_error in I. destruct I as (j & J).
    revert j J NV. induction Rv as [|x y l l' H _ IH]; intros [|j] J NV; try discriminate; cbn in J.
    - injection J as <-. rewrite (NV x (or_introl eq_refl)) in H. now destruct y.
    - apply (IH j J). intros b Ib. apply NV. now right. }
  assert (FM : forall A B (g : A -> list B) l, (forall x, In x l -> x = None) -> flat_map (opt_held g) l = []).
  { intros X Y g l H. induction l as [|x l IH]; [reflexivity|]. cbn. rewrite (H x (or_introl eq_refl)).
    cbn. apply IH. intros y I. apply H. now right. }
  assert (H1 : values_handlers s = []) by (unfold values_handlers; rewrite !FM; auto).
  assert (H2 : values_names s = []) by (unfold values_names; now rewrite !FM).
  rewrite H1 in A, B. rewrite H2 in C. apply Permutation_sym, Permutation_nil, map_eq_nil in A, C.
  destruct (h_cells (stores (w_mem w))); [auto|discriminate].
Qed.

(** No failure is due to an owning pointer: a program fails only where the hash map does, or
    where it names a variable that is not in scope. *)
Lemma fo_room (x : umap bytes (list F)) name : faults_ok (room hash x name).
Proof.
  apply fo_bind; [apply fo_index|]. intros [i|] _; [exact I|]. destruct (load_exceeds _ _); [|exact I].
  unfold rehash. apply fo_rehash.
Qed.

Lemma fo_left e (x : umap bytes (list F)) name : faults_ok (left_reg hash e x name).
Proof. destruct e; [exact I|exact I|apply fo_room]. Qed.

Lemma fo_step_e (s : values F) o e : faults_ok (step_e hash s o e).
Proof.
  destruct e; [apply fo_step| |]; destruct o; cbn [step_e]; try exact I;
    repeat first
      [ apply fo_bind; [first [apply fo_var | apply fo_left]|intros ? _]
      | exact I ].
Qed.

Theorem C67_no_bad_pointer : forall (os : list (op F)) f, runs_t start 0 os = Fault f -> map_fault f.
Proof.
  intros os f E. destruct (runs_t_rel types hash oom os start 0 no_values (start_rel types)) as (es & A & B).
  rewrite E in B. inversion B as [|? E1 E2]; subst. clear - E2.
  revert E2. generalize (@no_values F). revert es. induction os as [|o os IH]; intros [|e es] s; cbn [runs_e]; try discriminate.
  pose proof (fo_step_e s o e) as H. destruct (step_e hash s o e) as [s'|g]; cbn [bind]; [apply IH|].
  intros [= ->]. exact H.
Qed.

(** With enough memory nothing changes. *)
Theorem C67_enough_memory : (forall n, oom n = false) -> forall (os : list (op F)),
  runs_t start 0 os = (w <- runs_h types hash start os ;; Done (w, map (fun _ => false) os)).
Proof. intros P os. now apply runs_t_plenty. Qed.

(** ** What one statement that throws leaves *)

(** Everything that iterating over a registry reads: names and handlers. *)
Fixpoint read_nodes (m : mem F) (l : list (node key command)) : outcome (list (bytes * list F)) :=
  match l with
  | [] => Done []
  | n :: l =>
      t <- read_name m (n_val n) ;;
      fs <- targets m (v_items (c_functors (n_val n))) ;;
      r <- read_nodes m l ;; Done ((t, fs) :: r)
  end.
Definition listing (w : world F) (b : nat) : outcome (list (bytes * list F)) :=
  mp <- var (w_maps w) b ;; read_nodes (w_mem w) (nodes mp).

Lemma listing_rel w s b : world_rel types w s ->
  listing w b = (x <- var (s_maps s) b ;; Done (iterate x)).
Proof.
  intros [G M Rv Rm Nm]. unfold listing. pose proof (var_rel _ _ _ b Rm) as V.
  destruct (var (w_maps w) b) as [mp|f]; inversion V as [? x [R E] E1 E2|]; subst; [|reflexivity].
  cbn [bind].
  assert (X : forall l l', nodes_rel key_rel (cmd_rel types G) l l' -> (forall n, In n l -> In n (nodes mp)) ->
    read_nodes (w_mem w) l = Done (map (fun n => (n_key n, n_val n)) l')).
  { induction 1 as [|n n' l l' (Rk & Rc & _) _ IH]; intros I; [reflexivity|]. cbn [read_nodes map].
    assert (In_ : In n (nodes mp)) by (apply I; now left).
    apply In_nth_error in In_. destruct In_ as (j & Ej).
    pose proof (all_nth _ _ _ _ Nm E) as NN. unfold all_named in NN. rewrite Forall_forall in NN.
    specialize (NN (entry n) (nth_error_In _ j (iterate_at _ _ _ Ej))). unfold named in NN. cbn [entry fst snd] in NN.
    unfold read_name. rewrite NN. unfold deref.
    rewrite (in_cell _ _ (k_text (n_key n)) (proj1 (ok_keys _ _ _ _ M))).
    - cbn [bind]. rewrite firstn_all.
      destruct (targets_ok types (w_mem w) G _ _ (v_items (c_functors (n_val n))) (n_val n') M) as [T _].
      + intros a Ia. apply in_or_app. right. eapply in_opt; [exact E|]. eapply in_held_map; eauto.
      + exact Rc.
      + rewrite T. cbn [bind]. rewrite IH; [|intros z Iz; apply I; now right]. cbn [bind]. now rewrite <- Rk.
    - eapply Permutation_in; [symmetry; apply (ok_names _ _ _ _ M)|].
      eapply in_opt; [exact E|]. unfold keys_map. apply (in_map key_of _ (entry n)).
      apply (nth_error_In _ j), iterate_at, Ej. }
  apply X; [apply R|auto].
Qed.

(** The functors that a call takes out of a variable before it can throw. *)
Definition taken (w : world F) (o : op F) : list functor :=
  match o with
  | AddVec _ _ v => match var (w_vecs w) v with Done x => v_items x | Fault _ => [] end
  | _ => []
  end.

Lemma room_entries (x x' : umap bytes (list F)) name : room hash x name = Done x' -> iterate x' = iterate x.
Proof.
  unfold room. destruct (findNodeIndex _ _ _ _) as [[i|]|]; cbn [bind]; try congruence.
  destruct (load_exceeds _ _); [apply rehash_entries|congruence].
Qed.

Lemma left_entries e (x x' : umap bytes (list F)) name : left_reg hash e x name = Done x' -> iterate x' = iterate x.
Proof. destruct e; cbn; try congruence. apply room_entries. Qed.

(** A failed statement on values. *)
Lemma failed_values (s s' : values F) o e : threw_s e = true -> step_e hash s o e = Done s' ->
  exists vs, (forall w, world_rel types w s -> targets (w_mem w) (taken w o) = Done vs) /\
    Permutation (flat_map (opt_held (fun fs => fs)) (s_vecs s)) (vs ++ flat_map (opt_held (fun fs => fs)) (s_vecs s')) /\
    Forall2 (opt_rel (fun x x' => x' = x \/ exists name, room hash x name = Done x')) (s_maps s) (s_maps s').
Proof.
  intros T E.
  assert (Same : forall l : list (option (umap bytes (list F))),
    Forall2 (opt_rel (fun x x' => x' = x \/ exists name, room hash x name = Done x')) l l).
  { induction l as [|[x|] l IH]; constructor; cbn; auto. }
  assert (Put : forall b x x' name, var (s_maps s) b = Done x -> left_reg hash e x name = Done x' ->
    Forall2 (opt_rel (fun x x' => x' = x \/ exists name, room hash x name = Done x')) (s_maps s)
      (set_nth (s_maps s) b (Some x'))).
  { intros b x x' name Eb El. rewrite <- (set_nth_id _ _ _ (var_nth _ _ _ Eb)) at 1.
    apply Forall2_set_nth; [apply Same|]. cbn. destruct e; cbn in El; [discriminate|left; congruence|eauto]. }
  assert (D : (forall b name v, o <> AddVec b name v) -> forall w, world_rel types w s -> targets (w_mem w) (taken w o) = Done []).
  { intros N w _. destruct o; try reflexivity. now edestruct N. }
  destruct o as [fs|v|v| |b|b d|b|b name v|b name f|b name|b].
  8: { assert (E' : (x <- var (s_maps s) b ;; _ <- var (s_vecs s) v ;; x' <- left_reg hash e x name ;;
          Done (Values (set_nth (s_vecs s) v (Some [])) (set_nth (s_maps s) b (Some x')))) = Done s') by (destruct e; easy).
       destruct (var (s_maps s) b) as [x|] eqn:Eb; cbn [bind] in E'; [|discriminate].
       destruct (var (s_vecs s) v) as [y|] eqn:Ev; cbn [bind] in E'; [|discriminate].
       destruct (left_reg hash e x name) as [x'|] eqn:El; cbn [bind] in E'; [|discriminate]. injection E' as <-.
       exists y. split; [|split].
       - intros w [G M Rv Rm Nm]. cbn [taken]. pose proof (var_rel _ _ _ v Rv) as V. rewrite Ev in V.
         inversion V as [u ? [R En] E1 E2|]; subst.
         apply (targets_ok types (w_mem w) G _ _ (v_items u) y M); [|exact R].
         intros a Ia. apply in_or_app. left. eapply in_opt; [exact En|exact Ia].
       - cbn [s_vecs]. pose proof (set_nth_perm (opt_held (fun fs : list F => fs)) (s_vecs s) v (Some y) (Some []) (var_nth _ _ _ Ev)) as P.
         symmetry. exact P.
       - cbn [s_maps]. eauto. }
  8: { assert (E' : (x <- var (s_maps s) b ;; x' <- left_reg hash e x name ;;
          Done (Values (s_vecs s) (set_nth (s_maps s) b (Some x')))) = Done s') by (destruct e; easy).
       destruct (var (s_maps s) b) as [x|] eqn:Eb; cbn [bind] in E'; [|discriminate].
       destruct (left_reg hash e x name) as [x'|] eqn:El; cbn [bind] in E'; [|discriminate]. injection E' as <-.
       exists []. split; [apply D; congruence|]. split; [reflexivity|]. cbn [s_maps]. eauto. }
  all: assert (E' : Done s = Done s') by (destruct e; easy); injection E' as <-;
    exists []; (split; [apply D; congruence|]); (split; [reflexivity|]); apply Same.
Qed.

Lemma failed_step (os : list (op F)) w ts c o w' c' :
  runs_t start 0 os = Done (w, ts) -> step_t w c o = Done (w', c', true) ->
  exists s s' e, world_rel types w s /\ world_rel types w' s' /\ threw_s e = true /\
    (e <> Normal -> allocates o = true) /\ step_e hash s o e = Done s'.
Proof.
  intros E St. destruct (reach_t os w ts E) as (es & s & _ & _ & _ & R).
  destruct (step_t_rel types hash oom w c s o R) as (e & A & B). rewrite St in B.
  inversion B as [? s' TR E1 E2|]; subst. destruct TR as [T R']. exists s, s', e. auto.
Qed.

(** Only statements that allocate throw: never remove, clear, moves and ends of scopes. *)
Theorem C67_who_throws : forall (os : list (op F)) w ts c o w' c',
  runs_t start 0 os = Done (w, ts) -> step_t w c o = Done (w', c', true) -> allocates o = true.
Proof.
  intros os w ts c o w' c' E St. destruct (failed_step os w ts c o w' c' E St) as (s & s' & e & _ & _ & T & A & _).
  apply A. now intros ->.
Qed.

(** Iterating over any registry reads the same names and handlers in the same order as
    before; this needs no assumption on removals. *)
Theorem C67_contents_kept : forall (os : list (op F)) w ts c o w' c',
  runs_t start 0 os = Done (w, ts) -> step_t w c o = Done (w', c', true) ->
  forall b, listing w' b = listing w b.
Proof.
  intros os w ts c o w' c' E St b. destruct (failed_step os w ts c o w' c' E St) as (s & s' & e & R & R' & T & _ & Es).
  rewrite (listing_rel w s b R), (listing_rel w' s' b R').
  destruct (failed_values s s' o e T Es) as (_ & _ & _ & Fm).
  pose proof (var_rel _ _ _ b Fm) as V.
  destruct (var (s_maps s) b) as [x|f]; inversion V as [? x' [H _] E1 E2|]; subst; cbn [bind]; [|reflexivity].
  f_equal. destruct H as [->|(name & H)]; [reflexivity|exact (room_entries _ _ _ H)].
Qed.

(** Every handler alive stays alive except those that were moved into the call, which are
    destroyed; the buffers of names stay. *)
Theorem C67_only_arguments_destroyed : forall (os : list (op F)) w ts c o w' c',
  runs_t start 0 os = Done (w, ts) -> step_t w c o = Done (w', c', true) ->
  exists vs, targets (w_mem w) (taken w o) = Done vs /\
    Permutation (alive w) (vs ++ alive w') /\
    Permutation (map snd (h_cells (keys (w_mem w)))) (map snd (h_cells (keys (w_mem w')))).
Proof.
  intros os w ts c o w' c' E St. destruct (failed_step os w ts c o w' c' E St) as (s & s' & e & R & R' & T & _ & Es).
  destruct (failed_values s s' o e T Es) as (vs & Tv & Pv & Fm). exists vs. split; [now apply Tv|].
  destruct (live_rel types w s R) as (A & _ & C). destruct (live_rel types w' s' R') as (A' & _ & C').
  assert (X : flat_map (opt_held (fun x => flat_map (@snd bytes (list F)) (iterate x))) (s_maps s') =
              flat_map (opt_held (fun x => flat_map (@snd bytes (list F)) (iterate x))) (s_maps s) /\
              values_names s' = values_names s).
  { unfold values_names. clear - Fm. induction Fm as [|[x|] [x'|] l l' H _ [I1 I2]]; cbn [flat_map opt_held] in *; try easy.
    rewrite I1, I2. destruct H as [->|(name & H)]; [easy|]. now rewrite (room_entries _ _ _ H). }
  destruct X as [X1 X2]. unfold alive. split.
  - rewrite A, A'. unfold values_handlers. rewrite X1, Pv. now rewrite app_assoc.
  - rewrite C, C'. now rewrite X2.
Qed.

(** A registry that finds what it holds: no name twice, every lookup ends, every name
    registered is found. *)
Definition finds_all (w : world F) (b : nat) : Prop :=
  exists l, listing w b = Done l /\ NoDup (map fst l) /\
    forall name, exists r, lookup_h hash w b name = Done r /\ (In name (map fst l) -> r <> None).

(** Then all lookups give what they gave. *)
Theorem C67_lookups_kept : forall (os : list (op F)) w ts c o w' c' b,
  runs_t start 0 os = Done (w, ts) -> step_t w c o = Done (w', c', true) -> finds_all w b ->
  forall name, lookup_h hash w' b name = lookup_h hash w b name.
Proof.
  intros os w ts c o w' c' b E St (l & El & Nd & Hl) name.
  destruct (failed_step os w ts c o w' c' E St) as (s & s' & e & R & R' & T & _ & Es).
  rewrite (listing_rel w s b R) in El.
  assert (Hl' : forall n, exists r, reads types n (lookup_s hash s b n) = Done r /\ (In n (map fst l) -> r <> None)).
  { intros n. rewrite <- (lookup_rel types hash w s b n R). apply Hl. }
  rewrite (lookup_rel types hash w s b name R), (lookup_rel types hash w' s' b name R'). f_equal.
  destruct (failed_values s s' o e T Es) as (_ & _ & _ & Fm).
  pose proof (var_rel _ _ _ b Fm) as V. unfold lookup_s in *.
  destruct (var (s_maps s) b) as [x|f] eqn:Eb; inversion V as [? x' [H _] E1 E2|]; subst; cbn [bind] in *; [|discriminate].
  injection El as <-. destruct H as [->|(nm & H)]; [reflexivity|].
  unfold room in H. destruct (findNodeIndex bytes_eqb hash x nm) as [[i|]|] eqn:Ei; cbn [bind] in H; try congruence.
  destruct (load_exceeds (S (length (nodes x))) (length (buckets x))) eqn:Le; [|congruence].
  assert (W0 : 0 < length (buckets x)).
  { unfold findNodeIndex, computeBucketIndex in Ei. destruct (length (buckets x)); [discriminate|lia]. }
  pose proof (load_exceeds_nonzero _ _ W0 Le) as N0.
  destruct (rehash_lists hash x (length (nodes x) * 2) Nd) as (x2 & ch & Er & _ & P2 & Wf & _); [lia|].
  rewrite Er in H. injection H as ->.
  assert (In2 : forall k v, In (k, v) (pairs (nodes x')) <-> In (k, v) (iterate x)).
  { intros k v. rewrite P2. reflexivity. }
  assert (Snd : forall k r, find bytes_eqb hash x k = Done (Some r) -> In (k, r) (iterate x)).
  { intros k r. unfold find. destruct (findNodeIndex bytes_eqb hash x k) as [[i|]|] eqn:Ek; cbn [bind]; try discriminate.
    destruct (findNodeIndex_sound _ _ _ _ _ Ek) as (n & En & K1). apply SerializerProofs.bytes_eqb_eq in K1.
    rewrite (at_some _ _ _ En). cbn [bind]. intros [= <-]. rewrite <- K1.
    apply (in_map (fun n => (n_key n, n_val n))). eapply nth_error_In, En. }
  destruct (Hl' name) as (r & Hr & Hin).
  destruct (find bytes_eqb hash x name) as [q|] eqn:Ef; cbn [reads] in Hr; [|discriminate].
  unfold find. destruct (UMapProofs.find_index bytes_eqb hash bytes_dec x' ch _ name Wf) as [(i & n & -> & En & Ek)|[-> No]]; cbn [bind].
  - rewrite (at_some _ _ _ En). cbn [bind].
    assert (I1 : In (name, n_val n) (iterate x)).
    { apply In2. rewrite <- Ek. eapply nth_error_In, pairs_nth, En. }
    assert (I2 : In name (map fst (iterate x))) by (apply (in_map fst) in I1; exact I1).
    destruct q as [v|]; [|injection Hr as <-; now elim (Hin I2)].
    pose proof (Snd name v Ef) as I3. f_equal. f_equal.
    clear - I1 I3 Nd. induction (iterate x) as [|[k u] l IH]; [contradiction|]. cbn in Nd. inversion Nd as [|? ? N1 N2]; subst.
    destruct I1 as [I1|I1], I3 as [I3|I3].
    + congruence.
    + injection I1 as -> ->. apply (in_map fst) in I3. contradiction.
    + injection I3 as -> ->. apply (in_map fst) in I1. contradiction.
    + now apply IH.
  - destruct q as [v|]; [|reflexivity]. exfalso.
    pose proof (Snd name v Ef) as I3. apply In2 in I3. apply In_nth_error in I3. destruct I3 as (i & I3).
    apply pairs_inv in I3. destruct I3 as (n & En & K1 & _). exact (No i n En K1).
Qed.

(** A registry finds what it holds if no command is removed. *)
Theorem C67_finds_all : forall (os : list (op F)) w ts b mp,
  Forall (fun o => removes o = false) os -> runs_t start 0 os = Done (w, ts) ->
  var (w_maps w) b = Done mp -> buckets mp <> [] -> finds_all w b.
Proof.
  intros os w ts b mp Nr E Vb Nb. destruct (reach_t os w ts E) as (es & s & A & T & Es & R). subst ts.
  destruct (ideal_runs hash os es no_values no_ideals s) as (i & Ei & Ri); auto.
  { split; [reflexivity|constructor]. }
  unfold finds_all. rewrite (listing_rel w s b R).
  assert (L : forall name, lookup_h hash w b name = reads types name (lookup_s hash s b name)).
  { intros name. now apply lookup_rel. }
  destruct R as [G M Rv Rm Nm]. pose proof (var_rel _ _ _ b Rm) as V. rewrite Vb in V.
  inversion V as [? x [Rx _] E1 E2|]; subst. cbn [bind]. symmetry in E2.
  destruct (ideal_var hash s i b x Ri E2) as (r & _ & Sr).
  destruct r as [f|]; cbn in Sr.
  2: { subst x. destruct Rx as [B _]. cbn in B. congruence. }
  destruct Sr as (sh & g & Gd & _). pose proof Gd as (ch & W & _ & Hk & _ & Hf & _).
  exists (iterate x). split; [reflexivity|]. split.
  - pose proof (wf_nodup_keys hash _ _ _ _ W) as Nd. rewrite nkeys_pairs in Nd. exact Nd.
  - intros name. rewrite L. unfold lookup_s. rewrite E2. cbn [bind].
    rewrite (good_find bytes_eqb hash bytes_dec x sh g name Gd). cbn [reads].
    destruct (g name) as [fs|] eqn:Eg.
    + eexists. split; [reflexivity|]. easy.
    + eexists. split; [reflexivity|]. intros I. exfalso. apply in_map_iff in I.
      destruct I as ([k v] & <- & I). cbn in Eg. apply Hf in I. congruence.
Qed.
End Throw.

(** * Examples *)

Definition types1 (f : nat) : list bytes := repeat (lit "int") (f mod 3).
Definition only (k n : nat) : bool := n =? k.
Notation names := (hash_view true).

(** A program with 34 allocations.  Where it is allocation number [k] that throws: which
    statements threw, what is registered, which handlers are alive. *)
Definition prog : list (op nat) :=
  [NewBindings; Overload [10; 11; 12]; AddFunc 0 (lit "a") 1; AddVec 0 (lit "b") 0; AddFunc 0 (lit "c") 2;
   AddFunc 0 (lit "a") 3].

Definition found (w : world nat) (name : string) : option (list nat) :=
  match lookup_h names w 0 (lit name) with Done (Some (_, _, fs)) => Some fs | _ => None end.

Definition summary (k : nat) :=
  match runs_t types1 names (only k) start 0 prog with
  | Done (w, ts) => Some (ts, (found w "a", found w "b", found w "c"), alive w)
  | Fault _ => None
  end.

(** While "a" is registered for the first time. *)
Example ex_first_add : Forall (fun k => summary k =
  Some ([false; false; true; false; false; false],
        (Some [3], Some [10; 11; 12], Some [2]), [3; 2; 12; 11; 10])) (seq 13 6).
Proof. repeat constructor. Qed.
(** While the overloaded command is: its handlers are gone, and not registered. *)
Example ex_overloaded_add : Forall (fun k => summary k =
  Some ([false; false; false; true; false; false], (Some [3], None, Some [2]), [3; 2])) (seq 19 3).
Proof. repeat constructor. Qed.
(** While "c" is; the last of these comes after a rehash. *)
Example ex_third_add : Forall (fun k => summary k =
  Some ([false; false; false; false; true; false],
        (Some [3], Some [10; 11; 12], None), [3; 12; 11; 10])) (seq 22 7).
Proof. repeat constructor. Qed.
(** While "a" is replaced: the old handler stays. *)
Example ex_replace : Forall (fun k => summary k =
  Some ([false; false; false; false; false; true],
        (Some [1], Some [10; 11; 12], Some [2]), [2; 1; 12; 11; 10])) (seq 29 4).
Proof. repeat constructor. Qed.
(** Afterwards. *)
Example ex_no_failure : summary 33 =
  Some ([false; false; false; false; false; false],
        (Some [3], Some [10; 11; 12], Some [2]), [3; 2; 12; 11; 10]).
Proof. reflexivity. Qed.

(** The theorem about registries as functions applies to it. *)
Example ex_not_removed : Forall (fun o => removes o = false) prog.
Proof. repeat constructor. Qed.

(** The registry of this program finds what it holds. *)
Example ex_finds_all : exists w ts, runs_t types1 names (only 25) start 0 prog = Done (w, ts) /\
  In true ts /\ finds_all names w 0.
Proof.
  destruct (runs_t types1 names (only 25) start 0 prog) as [[w ts]|] eqn:E; [|vm_compute in E; discriminate].
  exists w, ts. split; [reflexivity|].
  pose proof (C67_finds_all types1 names (only 25) prog w ts 0) as P.
  specialize (fun mp => P mp ex_not_removed E).
  split.
  - clear P. vm_compute in E. injection E as <- <-. cbn. auto 8.
  - destruct (var (w_maps w) 0) as [mp|] eqn:V.
    + apply (P mp eq_refl). vm_compute in E. injection E as <- <-. vm_compute in V. injection V as <-. easy.
    + exfalso. vm_compute in E. injection E as <- <-. vm_compute in V. discriminate.
Qed.

(** ** Removals *)

(** After removals that damage the registry (C20) a failed add can change what lookups find:
    it has rehashed the registry, and "e", which was lost, is found again. *)
Definition damaged : list (op nat) :=
  [NewBindings; AddFunc 0 (lit "a") 1; AddFunc 0 (lit "b") 2; AddFunc 0 (lit "e") 3; AddFunc 0 (lit "i") 4;
   RemoveName 0 (lit "a"); RemoveName 0 (lit "b"); AddFunc 0 (lit "f") 5; RemoveName 0 (lit "i");
   AddFunc 0 (lit "m") 6; RemoveName 0 (lit "f"); AddFunc 0 (lit "p") 7; AddFunc 0 (lit "q") 8].

Theorem C67_lookups_kept_refuted :
  ~ (forall (oom : nat -> bool) (os : list (op nat)) w ts c o w' c' b name,
       runs_t types1 names oom start 0 os = Done (w, ts) ->
       step_t types1 names oom w c o = Done (w', c', true) ->
       lookup_h names w' b name = lookup_h names w b name).
Proof.
  intros H.
  destruct (runs_t types1 names (only 55) start 0 damaged) as [[w ts]|] eqn:E; [|vm_compute in E; discriminate].
  destruct (step_t types1 names (only 55) w 50 (AddFunc 0 (lit "z") 9)) as [[[w' c'] t]|] eqn:St.
  - specialize (H (only 55) damaged w ts 50 (AddFunc 0 (lit "z") 9) w' c' 0 (lit "e") E).
    vm_compute in E. injection E as <- <-. vm_compute in St. injection St as <- <- <-.
    specialize (H eq_refl). vm_compute in H. discriminate.
  - vm_compute in E. injection E as <- <-. vm_compute in St. discriminate.
Qed.

(** * Assumptions *)
Print Assumptions C67_lookup.
Print Assumptions C67_as_if_not_called.
Print Assumptions C67_alive.
Print Assumptions C67_no_leak.
Print Assumptions C67_no_bad_pointer.
Print Assumptions C67_enough_memory.
Print Assumptions C67_who_throws.
Print Assumptions C67_contents_kept.
Print Assumptions C67_only_arguments_destroyed.
Print Assumptions C67_lookups_kept.
Print Assumptions C67_finds_all.
Print Assumptions C67_lookups_kept_refuted.
