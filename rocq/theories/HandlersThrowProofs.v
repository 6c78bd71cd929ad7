(** Proofs about HandlersThrow.v: after every statement, thrown or not, the owned objects are
    those in the variables, as in HandlersProofs.v. *)
From Coq Require Import Ascii NArith ZArith Bool PeanoNat Lia Permutation List.
From Verif Require Import Util Base UMap UMapSpec UMapProofs UMapIter UMapRel Handlers HandlersSpec HandlersProofs
  HandlersThrow HandlersThrowSpec.
Import ListNotations.

Lemma set_nth_twice {A} (l : list A) i x y : set_nth (set_nth l i x) i y = set_nth l i y.
Proof. revert i. induction l as [|z l IH]; intros [|i]; cbn; congruence. Qed.

Section Proofs.
Context {F : Type}.
Variable types : F -> list bytes.
Variable hash : bytes -> Z.
Variable oom : nat -> bool.
Local Notation mem := (mem F).
Local Notation ghost := (@ghost F).
Local Notation fun_rel := (fun_rel types).
Local Notation vec_rel := (vec_rel types).
Local Notation map_rel := (map_rel types).
Local Notation add_rel := (add_rel types).
Local Notation cmd_rel := (cmd_rel types).
Local Notation world_rel := (world_rel types).

(** ** AnyFunctor *)

(** A handler that is allocated and freed again. *)
Lemma fw_undo (m : mem) G S K f : mem_ok m G S K ->
  exists m', fw_destroy (fst (fw_make m f)) (snd (fw_make m f)) = Done m' /\ mem_ok m' G S K.
Proof.
  intros [Wf Ws Wk D H O W I N Gh]. unfold fw_make, fw_destroy, free, deref. cbn.
  rewrite Nat.eqb_refl. cbn. eexists. split; [reflexivity|].
  constructor; cbn; auto.
  destruct Wf as [W1 W2]. split; [exact W1|]. cbn. intros a E. apply W2 in E. lia.
Qed.

Lemma af_make_t_ok (m : mem) c G S K f : mem_ok m G S K ->
  (exists m' c', af_make_t types oom m c f = threw m' c' /\ mem_ok m' G S K) \/
  (exists m' c' x G', af_make_t types oom m c f = gave m' c' x /\
     af_make types m f = Done (m', x) /\ ext G G' /\ fun_rel G' x f /\ mem_ok m' G' (held x ++ S) K).
Proof.
  intros H. unfold af_make_t. destruct (oom c); [left; eauto|].
  destruct (fw_undo m G S K f H) as (m1 & U & H1).
  destruct (fw_make m f) as [m0 func] eqn:EF. cbn [fst snd] in U.
  destruct (negb (length (types f) =? 0) && oom (Datatypes.S c)).
  { left. rewrite U. cbn [bind]. eauto. }
  destruct (oom (if negb (length (types f) =? 0) then _ else _)).
  { left. rewrite U. cbn [bind]. eauto. }
  right. destruct (af_make_ok types m G S K f H) as (m' & x & G' & E & R).
  pose proof E as E'. unfold af_make in E'. rewrite EF in E'. cbn in E'. injection E' as E1 E2.
  exists m', (Datatypes.S (if negb (length (types f) =? 0) then Datatypes.S (Datatypes.S c) else Datatypes.S c)), x, G'.
  split; [|split; [exact E|exact R]]. cbn. now rewrite E1, E2.
Qed.

(** ** Vector<AnyFunctor> *)

Lemma fvec_push_t_ok (m : mem) c v x G S K : mem_ok m G (held x ++ S) K ->
  (exists m' c', fvec_push_t oom m c v x = threw m' c' /\ mem_ok m' G S K) \/
  (exists c' v', fvec_push_t oom m c v x = gave m c' v' /\ v_items v' = v_items v ++ [x] /\
     fvec_push m v x = Done (m, v')).
Proof.
  intros H. destruct (fvec_push_ok m v x) as (cap & P). unfold fvec_push_t.
  unfold fvec_push in P |- *.
  destruct (v_cap v <? Datatypes.S (length (v_items v))) eqn:L.
  - destruct (oom c).
    { left. destruct (af_destroy_ok _ _ _ _ _ H) as (m' & -> & H'). cbn [bind]. eauto. }
    right. destruct (fvec_grow m v _) as [[m1 v1]|]; cbn [bind] in P |- *; [|discriminate].
    destruct (assert_ _); cbn [bind] in P |- *; [|discriminate]. cbn [af_move] in *.
    destruct (af_destroy m1 _) as [m2|]; cbn [bind] in P |- *; [|discriminate].
    injection P as -> E1 E2. do 2 eexists. split; [reflexivity|]. split; [exact E1|]. reflexivity.
  - right. cbn [bind] in P |- *.
    destruct (assert_ _); cbn [bind] in P |- *; [|discriminate]. cbn [af_move] in *.
    destruct (af_destroy m _) as [m2|]; cbn [bind] in P |- *; [|discriminate].
    injection P as -> E2. do 2 eexists. split; [reflexivity|]. auto.
Qed.

Lemma push_all_t_ok fs : forall (m : mem) c G S K v us, mem_ok m G (held_vec v ++ S) K -> vec_rel G v us ->
  (exists m' c', push_all_t types oom m c v fs = threw m' c' /\ fs <> [] /\ mem_ok m' G S K) \/
  (exists m' c' v' G', push_all_t types oom m c v fs = gave m' c' v' /\
     push_all types m v fs = Done (m', v') /\ ext G G' /\ vec_rel G' v' (us ++ fs) /\
     mem_ok m' G' (held_vec v' ++ S) K).
Proof.
  induction fs as [|f fs IH]; intros m c G S K v us H R; cbn [push_all_t push_all].
  - right. exists m, c, v, G. rewrite app_nil_r. split; [reflexivity|].
    repeat split; auto; apply ext_refl || apply H.
  - destruct (af_make_t_ok m c G _ K f H) as [(m1 & c1 & E1 & H1)|(m1 & c1 & x & G1 & E1 & E1' & X1 & R1 & H1)];
      rewrite E1; unfold threw, gave; cbn [bind].
    { left. destruct (fvec_destroy_ok _ _ _ _ _ H1) as (m' & -> & H'). cbn [bind]. do 2 eexists. easy. }
    rewrite E1'. cbn [bind fst snd].
    assert (H1' : mem_ok m1 G1 (held x ++ held_vec v ++ S) K) by exact H1.
    destruct (fvec_push_t_ok m1 c1 v x G1 _ K H1') as [(m2 & c2 & E2 & H2)|(c2 & v2 & E2 & I2 & P2)];
      rewrite E2; unfold threw, gave; cbn [bind].
    { left. destruct (fvec_destroy_ok _ _ _ _ _ H2) as (m' & -> & H'). cbn [bind].
      do 2 eexists. split; [reflexivity|]. split; [easy|].
      (* the ghost of the handler that was never stored is forgotten *)
      destruct H' as [Wf Ws Wk D Hh O W I N Gh]. constructor; auto.
      - intros s Is. destruct (Hh s Is) as (a & g & A & B & C). exists a, g. split; [exact A|].
        split; [exact B|].
        destruct H as [_ _ _ Dv Hv _ _ _ _ _].
        destruct (Hv s) as (b & g' & _ & _ & C'); [apply in_or_app; now right|].
        rewrite C'. apply X1 in C'. congruence.
      - intros s g E. apply X1 in E. exact (Gh _ _ E). }
    rewrite P2. cbn [bind fst snd].
    destruct (IH m1 c2 G1 S K v2 (us ++ [f])) as [(m' & c' & E3 & N3 & H3)|(m3 & c3 & v3 & G3 & E3 & E3' & X3 & R3 & H3)].
    + eapply mem_ok_perm; [| |exact H1]; [|reflexivity]. unfold held_vec, held_items. rewrite I2.
      rewrite flat_map_app. cbn [flat_map]. rewrite app_nil_r.
      rewrite app_assoc. apply Permutation_app_tail, Permutation_app_comm.
    + unfold HandlersProofs.vec_rel. rewrite I2. apply Forall2_app; [exact (vec_rel_ext _ _ _ _ _ X1 R)|]. auto.
    + left. exists m', c'. split; [exact E3|]. split; [easy|].
      destruct H3 as [Wf Ws Wk D Hh O W I N Gh]. constructor; auto.
      * intros s Is. destruct (Hh s Is) as (a & g & A & B & C). exists a, g. split; [exact A|].
        split; [exact B|].
        destruct H as [_ _ _ Dv Hv _ _ _ _ _].
        destruct (Hv s) as (b & g' & _ & _ & C'); [apply in_or_app; now right|].
        rewrite C'. apply X1 in C'. congruence.
      * intros s g E. apply X1 in E. exact (Gh _ _ E).
    + right. exists m3, c3, v3, G3. split; [exact E3|]. split; [exact E3'|].
      split; [eapply ext_trans; eauto|]. rewrite <- app_assoc in R3. auto.
Qed.

(** ** add *)

Lemma drop_args_ok (m : mem) G S K k v :
  mem_ok m G (held_vec v ++ S) ((k_buf k, k_text k) :: K) ->
  exists m', drop_args m k v = Done m' /\ mem_ok m' G S K.
Proof.
  intros H. unfold drop_args. destruct (fvec_destroy_ok _ _ _ _ _ H) as (m1 & -> & H1). cbn [bind].
  apply (key_destroy_ok _ _ _ _ _ H1).
Qed.

Lemma insertNode_len {K V} (h : K -> Z) (m m' : umap K V) i :
  insertNode h m i = Done m' -> length (nodes m') = length (nodes m).
Proof.
  intros E. apply insertNode_entries in E. unfold iterate in E.
  rewrite <- (map_length (fun n => (n_key n, n_val n)) (nodes m')), E. apply map_length.
Qed.

(** Without an exception it is [b_add]. *)
Definition as_add (c : nat) (r : mem * umap key command) : mem * nat * umap key command * bool :=
  (fst r, c, snd r, false).

Lemma b_add_t_normal (m : mem) c mp name v :
  oom c = false ->
  (findNodeIndex key_eqb (khash hash) mp (Key (h_next (keys m)) name) = Done None ->
     let grows := load_exceeds (S (length (nodes mp))) (length (buckets mp)) in
     grows && oom (S c) = false /\ oom (if grows then S (S c) else S c) = false) ->
  exists c', b_add_t hash oom m c mp name v = (r <- b_add hash m mp name v ;; Done (as_add c' r)).
Proof.
  intros E0 E1. unfold b_add_t, b_add. rewrite E0. cbn [alloc].
  set (k := Key (h_next (keys m)) name) in *.
  destruct (findNodeIndex key_eqb (khash hash) mp k) as [[i|]|f] eqn:EI; cbn [bind].
  - exists (S c). unfold insertOrAssign. rewrite EI. cbn [bind].
    destruct (at_ (nodes mp) i) as [n|f] eqn:EN; cbn [bind]; [|reflexivity].
    cbn [fvec_assign snd]. unfold drop_args.
    destruct (fvec_destroy _ (c_functors (n_val n))) as [m2|f]; cbn [bind]; [|reflexivity].
    destruct (key_destroy m2 k) as [m3|f]; cbn [bind]; [|reflexivity].
    apply at_inv in EN. cbn [nodes].
    rewrite (at_some _ _ _ (UMapProofs.set_nth_same _ _ _ _ EN)). cbn [bind].
    unfold as_add. cbn [fst snd set_val n_key n_val c_functors buckets n_bucket n_next n_prev].
    rewrite set_nth_twice. reflexivity.
  - destruct (E1 eq_refl) as [A B]. clear E1. cbn zeta. rewrite A, B.
    eexists. unfold insertOrAssign. rewrite EI. cbn [bind].
    destruct (if load_exceeds (S (length (nodes mp))) (length (buckets mp))
              then rehash (khash hash) mp (length (nodes mp) * 2) else Done mp) as [mp1|f];
      cbn [bind]; [|reflexivity].
    destruct (insertNode _ _ _) as [mp2|f] eqn:ES; cbn [bind]; [|reflexivity].
    apply insertNode_len in ES. cbn [nodes] in ES. rewrite app_length in ES. cbn [length] in ES.
    rewrite ES. replace (pred (length (nodes mp1) + 1)) with (length (nodes mp1)) by lia.
    destruct (at_ (nodes mp2) (length (nodes mp1))) as [n|f]; cbn [bind]; reflexivity.
  - eexists 0. reflexivity.
Qed.

Definition end_rel G S K (e : ending) (r : mem * nat * umap key command * bool) (x : umap bytes (list F)) : Prop :=
  let '(m', c', mp', t) := r in t = threw_s e /\ add_rel G S K (m', mp') x.

Definition reg_end (e : ending) (x : umap bytes (list F)) (name : bytes) (fs : list F) : outcome (umap bytes (list F)) :=
  match e with Normal => insertOrAssign bytes_eqb hash x name fs | _ => left_reg hash e x name end.

Lemma b_add_t_rel (m : mem) c G S K mp x name v fs :
  mem_ok m G (held_map mp ++ held_vec v ++ S) (keys_map mp ++ K) ->
  map_rel G mp x -> Forall named (iterate mp) -> vec_rel G v fs ->
  exists e, out_rel (end_rel G S K e) (b_add_t hash oom m c mp name v) (reg_end e x name fs).
Proof.
  intros H R Nm Rv.
  assert (Norm : forall c', b_add_t hash oom m c mp name v = (r <- b_add hash m mp name v ;; Done (as_add c' r)) ->
    exists e, out_rel (end_rel G S K e) (b_add_t hash oom m c mp name v) (reg_end e x name fs)).
  { intros c' E. exists Normal. rewrite E. cbn [reg_end].
    pose proof (b_add_rel types hash m G S K mp x name v fs H R Nm Rv) as B.
    destruct B as [r x1 B|f]; cbn [bind]; constructor. unfold as_add, end_rel. split; [reflexivity|].
    destruct r. exact B. }
  destruct (oom c) eqn:E0.
  { exists Early. unfold b_add_t. rewrite E0.
    destruct (fvec_destroy_ok v m G (held_map mp ++ S) (keys_map mp ++ K)) as (m' & -> & H').
    { eapply mem_ok_perm; [| |exact H]; [|reflexivity].
      rewrite !app_assoc. apply Permutation_app_tail, Permutation_app_comm. }
    cbn. constructor. unfold end_rel. split; [reflexivity|]. split; [exact R|]. split; [exact Nm|exact H']. }
  set (k := Key (h_next (keys m)) name).
  destruct (findNodeIndex key_eqb (khash hash) mp k) as [[i|]|f] eqn:EI.
  1, 3: destruct (b_add_t_normal m c mp name v E0) as (c' & E); [fold k; congruence|exact (Norm c' E)].
  set (grows := load_exceeds (Datatypes.S (length (nodes mp))) (length (buckets mp))).
  pose proof (key_make_ok m G _ _ name H) as H1. cbn [alloc fst] in H1.
  assert (Len : length (nodes x) = length (nodes mp) /\ buckets x = buckets mp).
  { destruct R as [B N]. split; [|symmetry; exact B]. apply rel_length in N. congruence. }
  assert (RI : findNodeIndex bytes_eqb hash x name = Done None).
  { pose proof (findNodeIndex_rel key_eqb bytes_eqb (khash hash) hash key_rel (cmd_rel G)
      key_rel_eqb (key_rel_hash hash) mp x k name R eq_refl) as Q.
    rewrite EI in Q. inversion Q; subst. congruence. }
  destruct (grows && oom (Datatypes.S c)) eqn:E1.
  { exists Early. unfold b_add_t. rewrite E0. cbn [alloc]. fold k. rewrite EI. cbn [bind]. fold grows. rewrite E1.
    destruct (drop_args_ok (set_keys m (Hp (Datatypes.S (h_next (keys m))) ((h_next (keys m), name) :: h_cells (keys m))))
                G (held_map mp ++ S) (keys_map mp ++ K) k v) as (m' & -> & H').
    { eapply mem_ok_perm; [| |exact H1]; [|reflexivity].
      rewrite !app_assoc. apply Permutation_app_tail, Permutation_app_comm. }
    cbn. constructor. unfold end_rel. split; [reflexivity|]. split; [exact R|]. split; [exact Nm|exact H']. }
  destruct (oom (if grows then Datatypes.S (Datatypes.S c) else Datatypes.S c)) eqn:E2.
  2: { destruct (b_add_t_normal m c mp name v E0) as (c' & E); [|exact (Norm c' E)].
       intros _. fold grows. cbn zeta. auto. }
  exists Late. unfold b_add_t. rewrite E0. cbn [alloc]. fold k. rewrite EI. cbn [bind]. fold grows. rewrite E1, E2.
  cbn [reg_end left_reg]. unfold room. rewrite RI. cbn [bind].
  destruct Len as [L1 L2]. rewrite L1, L2. fold grows.
  assert (RR : out_rel (fun a b => map_rel G a b /\ iterate a = iterate mp)
     (if grows then rehash (khash hash) mp (length (nodes mp) * 2) else Done mp)
     (if grows then rehash hash x (length (nodes mp) * 2) else Done x)).
  { destruct grows; [|constructor; auto].
    pose proof (rehash_rel (khash hash) hash key_rel (cmd_rel G) (key_rel_hash hash) mp x (length (nodes mp) * 2) R) as Q.
    destruct (rehash (khash hash) mp (length (nodes mp) * 2)) as [a|f] eqn:ER; inversion Q; subst; constructor.
    apply rehash_entries in ER. auto. }
  destruct RR as [mp1 x1 [R1 I1]|f]; cbn [bind]; [|constructor].
  destruct (drop_args_ok (set_keys m (Hp (Datatypes.S (h_next (keys m))) ((h_next (keys m), name) :: h_cells (keys m))))
              G (held_map mp1 ++ S) (keys_map mp1 ++ K) k v) as (m' & -> & H').
  { unfold held_map, keys_map. rewrite I1. fold (held_map mp) (keys_map mp).
    eapply mem_ok_perm; [| |exact H1]; [|reflexivity].
    rewrite !app_assoc. apply Permutation_app_tail, Permutation_app_comm. }
  cbn [bind]. constructor. unfold end_rel. split; [reflexivity|]. split; [exact R1|].
  split; [now rewrite <- I1 in Nm|exact H'].
Qed.

Lemma b_add1_t_rel (m : mem) c G S K mp x name y f :
  mem_ok m G (held_map mp ++ held y ++ S) (keys_map mp ++ K) ->
  map_rel G mp x -> Forall named (iterate mp) -> fun_rel G y f ->
  exists e, out_rel (end_rel G S K e) (b_add1_t hash oom m c mp name y) (reg_end e x name [f]).
Proof.
  intros H R Nm Ry. unfold b_add1_t. cbn [af_move].
  assert (H0 : mem_ok m G (held y ++ held_map mp ++ S) (keys_map mp ++ K)).
  { eapply mem_ok_perm; [| |exact H]; [|reflexivity].
    rewrite !app_assoc. apply Permutation_app_tail, Permutation_app_comm. }
  destruct (fvec_push_t_ok m c fvec_new y G _ _ H0) as [(m1 & c1 & E1 & H1)|(c1 & v1 & E1 & I1 & _)];
    rewrite E1; unfold threw, gave; cbn [bind].
  { exists Early. cbn. constructor. split; [reflexivity|]. split; [exact R|]. split; [exact Nm|exact H1]. }
  cbn [fvec_move].
  destruct (b_add_t_rel m c1 G S K mp x name v1 [f]) as (e & B); auto.
  { unfold held_vec, held_items. rewrite I1. cbn. rewrite app_nil_r. exact H. }
  { unfold HandlersProofs.vec_rel. rewrite I1. cbn. auto. }
  exists e. destruct B as [[[[m2 c2] mp2] t] x1 B|g]; cbn [bind]; [|constructor].
  cbn. constructor. exact B.
Qed.

(** ** Programs *)

Lemma set_nth_id {A} (l : list A) i x : nth_error l i = Some x -> set_nth l i x = l.
Proof. revert i. induction l as [|z l IH]; intros [|i] E; cbn in *; try congruence. f_equal. now apply IH. Qed.

Lemma var_nth {A} (l : list (option A)) i x : var l i = Done x -> nth_error l i = Some (Some x).
Proof. unfold var. destruct (nth_error l i) as [[y|]|]; congruence. Qed.

Definition step_end (e : ending) (r : world F * nat * bool) (s : values F) : Prop :=
  let '(w', c', t) := r in t = threw_s e /\ world_rel w' s.

Lemma add_step (w : world F) s b x (vecs' : list (option fvec)) svecs' G G' m' x' y' e c' t S K :
  Forall2 (opt_rel (map_rel G)) (w_maps w) (s_maps s) -> Forall (opt_all all_named) (w_maps w) ->
  nth_error (w_maps w) b = Some (Some x) -> ext G G' ->
  Forall2 (opt_rel (vec_rel G')) vecs' svecs' ->
  S = held_vecs vecs' ++ held_maps (set_nth (w_maps w) b None) ->
  K = keys_maps (set_nth (w_maps w) b None) ->
  end_rel G' S K e (m', c', x', t) y' ->
  step_end e (World m' vecs' (set_nth (w_maps w) b (Some x')), c', t) (Values svecs' (set_nth (s_maps s) b (Some y'))).
Proof.
  intros Rm Nm E Ex Rv -> -> [T A]. split; [exact T|].
  pose proof (held_maps_set (w_maps w) b x None E) as P.
  pose proof (keys_maps_set (w_maps w) b x None E) as Q. cbn [opt_held app] in P, Q.
  apply (put_map types m' G G' (held_vecs vecs') vecs' (w_maps w) b x svecs' (s_maps s) (m', x') y' E Ex Rm Nm Rv
    (held_vecs vecs' ++ held_maps (set_nth (w_maps w) b None)) (keys_maps (set_nth (w_maps w) b None))); auto.
  clear Q. rewrite <- P. rewrite !app_assoc.
  rewrite (Permutation_app_comm (held_map x)), <- app_assoc. apply Permutation_app_comm.
Qed.

Lemma step_t_rel w c s o : world_rel w s ->
  exists e, (e <> Normal -> allocates o = true) /\
    out_rel (step_end e) (step_t types hash oom w c o) (step_e hash s o e).
Proof.
  intros R. pose proof R as [G M Rv Rm Nm].
  assert (Old : step_t types hash oom w c o = (w' <- step_h types hash w o ;; Done (w', c, false)) ->
    exists e, (e <> Normal -> allocates o = true) /\
      out_rel (step_end e) (step_t types hash oom w c o) (step_e hash s o e)).
  { intros E. exists Normal. split; [easy|]. rewrite E. cbn [step_e].
    destruct (step_rel types hash w s o R) as [w' s' R'|f]; cbn [bind]; constructor. now split. }
  destruct o as [fs|v|v| |b|b d|b|b name v|b name f|b name|b]; try (apply Old; reflexivity); clear Old;
    cbn [step_t].
  - destruct (push_all_t_ok fs (w_mem w) c G _ _ fvec_new [] M ltac:(constructor))
      as [(m' & c' & E & NE & M')|(m' & c' & v' & G' & E & E' & X & Rv' & M')];
      unfold overloaded_t; rewrite E; unfold threw, gave; cbn [bind].
    + exists Early. split; [destruct fs; [easy|reflexivity]|]. cbn [step_e]. constructor. split; [reflexivity|].
      apply (WorldRel _ _ _ G); cbn [w_mem w_vecs w_maps]; assumption.
    + exists Normal. split; [easy|]. cbn [step_e step_s]. constructor. split; [reflexivity|].
      apply (WorldRel _ _ _ G'); cbn [w_mem w_vecs w_maps s_vecs s_maps].
      * eapply mem_ok_perm; [| |exact M']; [|reflexivity]. rewrite held_vecs_app.
        rewrite app_assoc. apply Permutation_app_tail, Permutation_app_comm.
      * apply Forall2_app; [eapply vecs_ext; eauto|]. constructor; [exact Rv'|constructor].
      * eapply maps_ext; eauto.
      * exact Nm.
  - destruct (oom c); [|destruct (oom (Datatypes.S c))].
    1, 2: exists Early; split; [reflexivity|]; cbn [step_e]; constructor; split; [reflexivity|assumption].
    exists Normal. split; [easy|]. cbn [step_e].
    pose proof (step_rel types hash w s NewBindings R) as Q. cbn [step_h] in Q.
    destruct (step_s hash s NewBindings) as [s'|]; inversion Q; subst. constructor. now split.
  - pose proof (var_rel _ _ _ b Rm) as Vb.
    destruct (var (w_maps w) b) as [x|f] eqn:Eb; cbn [bind].
    2: { exists Normal. split; [easy|]. cbn [step_e step_s]. inversion Vb; subst. constructor. }
    inversion Vb as [? y [Rx E] E1 E2|]; subst. symmetry in E2. clear Vb.
    pose proof (var_rel _ _ _ v Rv) as Vv.
    destruct (var (w_vecs w) v) as [x'|f] eqn:Ev; cbn [bind].
    2: { exists Normal. split; [easy|]. cbn [step_e step_s]. rewrite E2. inversion Vv; subst. constructor. }
    inversion Vv as [? y' [Rx' E'] E3 E4|]; subst. symmetry in E4. clear Vv.
    cbn [fvec_move].
    set (vecs' := set_nth (w_vecs w) v (Some fvec_new)).
    assert (PV : Permutation (held_vec x' ++ held_vecs vecs') (held_vecs (w_vecs w))) by exact (held_vecs_set _ v x' (Some fvec_new) E').
    pose proof (held_maps_set _ b x None E) as P.
    pose proof (keys_maps_set _ b x None E) as Q. cbn [opt_held app] in P, Q.
    destruct (b_add_t_rel (w_mem w) c G (held_vecs vecs' ++ held_maps (set_nth (w_maps w) b None))
                (keys_maps (set_nth (w_maps w) b None)) x y name x' y') as (e & B); auto.
    { eapply mem_ok_perm; [| |exact M]; [|rewrite <- Q; reflexivity].
      rewrite <- P, <- PV. rewrite !app_assoc. apply Permutation_app_tail.
      rewrite Permutation_app_comm. now rewrite app_assoc. }
    { exact (all_nth _ _ _ _ Nm E). }
    exists e. split; [easy|].
    assert (SE : step_e hash s (AddVec b name v) e =
      (x1 <- reg_end e y name y' ;; Done (Values (set_nth (s_vecs s) v (Some [])) (set_nth (s_maps s) b (Some x1))))).
    { destruct e; cbn [step_e step_s reg_end]; rewrite E2, E4; reflexivity. }
    rewrite SE. clear SE.
    destruct B as [[[[m' c'] x1] t] y1 B|f]; cbn [bind]; constructor.
    eapply add_step; [exact Rm|exact Nm|exact E|apply ext_refl| |reflexivity|reflexivity|exact B].
    apply Forall2_set_nth; [exact Rv|]. constructor.
  - pose proof (var_rel _ _ _ b Rm) as Vb.
    destruct (var (w_maps w) b) as [x|g] eqn:Eb; cbn [bind].
    2: { exists Normal. split; [easy|]. cbn [step_e step_s]. inversion Vb; subst. constructor. }
    inversion Vb as [? y [Rx E] E1 E2|]; subst. symmetry in E2. clear Vb.
    destruct (af_make_t_ok (w_mem w) c G _ _ f M) as [(m1 & c1 & E1 & M1)|(m1 & c1 & a & G1 & E1 & _ & X1 & R1 & M1)];
      rewrite E1; unfold threw, gave; cbn [bind].
    { exists Early. split; [easy|]. cbn [step_e left_reg]. rewrite E2. cbn [bind]. constructor.
      rewrite (set_nth_id _ _ _ (var_nth _ _ _ E2)). split; [reflexivity|].
      apply (WorldRel _ _ _ G); cbn [w_mem w_vecs w_maps s_vecs s_maps]; assumption. }
    pose proof (held_maps_set _ b x None E) as P.
    pose proof (keys_maps_set _ b x None E) as Q. cbn [opt_held app] in P, Q.
    destruct (b_add1_t_rel m1 c1 G1 (held_vecs (w_vecs w) ++ held_maps (set_nth (w_maps w) b None))
                (keys_maps (set_nth (w_maps w) b None)) x y name a f) as (e & B); auto.
    { eapply mem_ok_perm; [| |exact M1]; [|rewrite <- Q; reflexivity].
      rewrite <- P. rewrite !app_assoc. apply Permutation_app_tail.
      rewrite Permutation_app_comm. now rewrite app_assoc. }
    { eapply map_rel_ext; eauto. }
    { exact (all_nth _ _ _ _ Nm E). }
    exists e. split; [easy|].
    assert (SE : step_e hash s (AddFunc b name f) e =
      (x1 <- reg_end e y name [f] ;; Done (Values (s_vecs s) (set_nth (s_maps s) b (Some x1))))).
    { destruct e; cbn [step_e step_s reg_end]; rewrite E2; reflexivity. }
    rewrite SE. clear SE.
    destruct B as [[[[m' c'] x1] t] y1 B|g]; cbn [bind]; constructor.
    eapply add_step; [exact Rm|exact Nm|exact E|exact X1| |reflexivity|reflexivity|exact B].
    eapply vecs_ext; eauto.
Qed.

Definition run_end (es : list ending) (r : world F * list bool) (s : values F) : Prop :=
  snd r = map threw_s es /\ world_rel (fst r) s.

Lemma runs_t_rel os : forall w c s, world_rel w s ->
  exists es, Forall2 (fun o e => e <> Normal -> allocates o = true) os es /\
    out_rel (run_end es) (runs_t types hash oom w c os) (runs_e hash s os es).
Proof.
  induction os as [|o os IH]; intros w c s R; cbn [runs_t].
  - exists []. split; [constructor|]. constructor. now split.
  - destruct (step_t_rel w c s o R) as (e & A & B).
    destruct (step_t types hash oom w c o) as [[[w' c'] t]|f];
      inversion B as [? s' TR E1 E2|? E1 E2]; subst; [destruct TR as [-> R']|].
    + destruct (IH w' c' s' R') as (es & A' & B'). exists (e :: es). split; [now constructor|].
      cbn [bind runs_e]. rewrite <- E2. cbn [bind].
      destruct B' as [r' s2 [T' R2]|f]; cbn [bind]; constructor. split; [|exact R2].
      cbn [snd map]. now rewrite T'.
    + exists (e :: map (fun _ => Normal) os). split.
      * constructor; [exact A|]. clear. induction os; constructor; easy.
      * cbn [bind runs_e]. rewrite <- E2. constructor.
Qed.

(** ** When nothing throws *)

Section Plenty.
Hypothesis plenty : forall n, oom n = false.

Lemma af_make_t_plenty (m : mem) c f : exists c',
  af_make_t types oom m c f = (r <- af_make types m f ;; gave (fst r) c' (snd r)).
Proof.
  unfold af_make_t. rewrite !plenty, andb_false_r. eexists. unfold af_make. cbn. reflexivity.
Qed.

Lemma fvec_push_t_plenty (m : mem) c v x : exists c',
  fvec_push_t oom m c v x = (r <- fvec_push m v x ;; gave (fst r) c' (snd r)).
Proof.
  unfold fvec_push_t, fvec_push. rewrite plenty.
  destruct (Nat.ltb_spec (v_cap v) (S (length (v_items v)))) as [L|L].
  - eexists. destruct (fvec_grow _ _ _) as [[m1 v1]|]; cbn [bind]; [|reflexivity].
    destruct (assert_ _); cbn [bind]; [|reflexivity]. cbn [af_move].
    destruct (af_destroy _ _); cbn [bind]; reflexivity.
  - eexists. cbn [bind]. rewrite (proj2 (Nat.leb_le _ _) L). cbn [assert_ bind af_move].
    destruct (af_destroy _ _); cbn [bind]; reflexivity.
Qed.

Lemma push_all_t_plenty fs : forall (m : mem) c v, exists c',
  push_all_t types oom m c v fs = (r <- push_all types m v fs ;; gave (fst r) c' (snd r)).
Proof.
  induction fs as [|f fs IH]; intros m c v; cbn [push_all_t push_all]; [exists c; reflexivity|].
  destruct (af_make_t_plenty m c f) as (c1 & ->).
  destruct (af_make types m f) as [r1|]; cbn [bind]; [|exists 0; reflexivity]. unfold gave. cbn [bind].
  destruct (fvec_push_t_plenty (fst r1) c1 v (snd r1)) as (c2 & ->).
  destruct (fvec_push _ _ _) as [r2|]; cbn [bind]; [|exists 0; reflexivity]. unfold gave. cbn [bind]. apply IH.
Qed.

Lemma b_add_t_plenty (m : mem) c mp name v : exists c',
  b_add_t hash oom m c mp name v = (r <- b_add hash m mp name v ;; Done (as_add c' r)).
Proof.
  apply b_add_t_normal; [apply plenty|]. intros _. cbn zeta. rewrite !plenty, andb_false_r. auto.
Qed.

Lemma b_add1_t_plenty (m : mem) c mp name x : exists c',
  b_add1_t hash oom m c mp name x = (r <- b_add1 hash m mp name x ;; Done (as_add c' r)).
Proof.
  unfold b_add1_t, b_add1. cbn [af_move].
  destruct (fvec_push_t_plenty m c fvec_new x) as (c1 & ->).
  destruct (fvec_push m fvec_new x) as [r1|]; cbn [bind]; [|exists 0; reflexivity]. unfold gave. cbn [bind fvec_move fst snd].
  destruct (b_add_t_plenty (fst r1) c1 mp name (snd r1)) as (c2 & ->).
  destruct (b_add _ _ _ _ _) as [r2|]; cbn [bind]; [|exists 0; reflexivity]. unfold as_add. cbn [bind].
  exists c2. reflexivity.
Qed.

Lemma step_t_plenty w c o : exists c',
  step_t types hash oom w c o = (w' <- step_h types hash w o ;; Done (w', c', false)).
Proof.
  destruct o as [fs|v|v| |b|b d|b|b name v|b name f|b name|b]; try (exists c; reflexivity);
    cbn [step_t step_h].
  - unfold overloaded_t, overloaded. destruct (push_all_t_plenty fs (w_mem w) c fvec_new) as (c' & ->).
    destruct (push_all _ _ _ _) as [r|]; cbn [bind]; [|exists 0; reflexivity]. exists c'. reflexivity.
  - rewrite !plenty. eexists. reflexivity.
  - destruct (var (w_maps w) b) as [x|]; cbn [bind]; [|exists 0; reflexivity].
    destruct (var (w_vecs w) v) as [y|]; cbn [bind]; [|exists 0; reflexivity].
    cbn [fvec_move fst snd]. destruct (b_add_t_plenty (w_mem w) c x name y) as (c' & ->).
    destruct (b_add _ _ _ _ _) as [r|]; cbn [bind]; [|exists 0; reflexivity]. exists c'. reflexivity.
  - destruct (var (w_maps w) b) as [x|]; cbn [bind]; [|exists 0; reflexivity].
    destruct (af_make_t_plenty (w_mem w) c f) as (c1 & ->).
    destruct (af_make _ _ _) as [r1|]; cbn [bind]; [|exists 0; reflexivity]. unfold gave. cbn [bind].
    destruct (b_add1_t_plenty (fst r1) c1 x name (snd r1)) as (c' & ->).
    destruct (b_add1 _ _ _ _ _) as [r|]; cbn [bind]; [|exists 0; reflexivity]. exists c'. reflexivity.
Qed.

Lemma runs_t_plenty os : forall w c,
  runs_t types hash oom w c os = (w' <- runs_h types hash w os ;; Done (w', map (fun _ => false) os)).
Proof.
  induction os as [|o os IH]; intros w c; cbn [runs_t runs_h map]; [reflexivity|].
  destruct (step_t_plenty w c o) as (c' & ->).
  destruct (step_h types hash w o) as [w'|]; cbn [bind]; [|reflexivity]. rewrite IH.
  destruct (runs_h types hash w' os); reflexivity.
Qed.
End Plenty.
End Proofs.

(** ** Registries as functions *)

Lemma bytes_dec : forall a b : bytes, reflect (a = b) (bytes_eqb a b).
Proof. intros a b. apply iff_reflect. symmetry. apply SerializerProofs.bytes_eqb_eq. Qed.

Section Ideal.
Context {F : Type}.
Variable hash : bytes -> Z.
Local Notation good := (good (V := list F) hash).

(** Growing the buckets needs nothing but different names. *)
Lemma rehash_lists {K V} (h : K -> Z) (m : umap K V) n : NoDup (map fst (iterate m)) -> 0 < n ->
  exists m' ch', rehash h m n = Done m' /\ length (buckets m') = n /\
    pairs (nodes m') = pairs (nodes m) /\
    wf h m' ch' (fun _ => True) (fun _ => False) /\
    ordered h m' ch' (nkeys (nodes m')).
Proof.
  intros D Hn. unfold rehash.
  destruct (rehash_loop_ok h (length (nodes m)) 0 (UMap (repeat None n) (nodes m)) (fun _ => []))
    as (m' & ch' & E & E1 & E2 & E3 & E4); [easy| | |].
  - constructor; cbn [buckets nodes].
    + now rewrite repeat_length.
    + rewrite repeat_length. intros b Hb. now apply nth_error_repeat.
    + intros i j a b Ha Hb E. rewrite NoDup_nth_error in D. apply D.
      * unfold iterate. rewrite !map_length. apply nth_error_Some. congruence.
      * unfold iterate. rewrite map_map. cbn. rewrite !nth_error_map, Ha, Hb. cbn. now rewrite E.
    + constructor.
    + cbn. split; [easy|]. intros [? _]. lia.
    + easy.
  - easy.
  - exists m', ch'. cbn [buckets] in E1; rewrite repeat_length in E1. easy.
Qed.

Lemma room_good x sh f name : good x sh f -> exists x' sh', room hash x name = Done x' /\ good x' sh' f.
Proof.
  intros H. pose proof H as (ch & W & O & Hk & Hw & Hf & Hst). unfold room.
  destruct (find_index bytes_eqb hash bytes_dec x ch _ name W) as [(i & n & -> & _)|[-> _]]; cbn [bind]; [eauto|].
  destruct (load_exceeds (S (length (nodes x))) (length (buckets x))) eqn:El; [|eauto].
  assert (H0 : 0 < length (nodes x)).
  { eapply load_exceeds_nonzero; [|exact El]. apply (wf_pos _ _ _ _ _ W). }
  destruct (rehash_ok hash x ch _ (length (nodes x) * 2) W) as (x' & ch' & E1 & E2 & E3 & E4 & E5); [lia|].
  exists x', (Shape (slots sh) (slots sh) [] (length (nodes x) * 2)). split; [exact E1|].
  exists ch'. cbn [stale order slots width].
  split; [eapply wf_ext; [| |exact E4]; easy|].
  assert (NK : nkeys (nodes x') = slots sh) by (rewrite nkeys_pairs, E3, <- nkeys_pairs; exact Hk).
  split; [now rewrite <- NK|]. split; [exact NK|]. split; [exact E2|].
  split; [intros k v; rewrite E3; apply Hf|easy].
Qed.

(** A registry and the function it stands for. *)
Definition stands (x : umap bytes (list F)) (r : reg) : Prop :=
  match r with
  | Some f => exists sh g, good x sh g /\ forall k, g k = f k
  | None => x = UMap [] []
  end.

Definition ideal_rel (s : values F) (i : ideals F) : Prop :=
  s_vecs s = i_vecs i /\ Forall2 (opt_rel stands) (s_maps s) (i_regs i).

Lemma ideal_var s i b x : ideal_rel s i -> var (s_maps s) b = Done x ->
  exists r, var (i_regs i) b = Done r /\ stands x r.
Proof.
  intros [_ R] E. pose proof (var_rel _ _ _ b R) as V. rewrite E in V. inversion V as [? r [A _] E1 E2|]; subst. eauto.
Qed.

Lemma moved_find name : findNodeIndex bytes_eqb hash (UMap [] [] : umap bytes (list F)) name = Fault DivByZero.
Proof. reflexivity. Qed.

Lemma ideal_step s i o e s' : ideal_rel s i -> removes o = false -> (e <> Normal -> allocates o = true) ->
  step_e hash s o e = Done s' ->
  exists i', step_i i o (threw_s e) = Done i' /\ ideal_rel s' i'.
Proof.
  intros R Hr Ha. pose proof R as [Rv Rm].
  assert (Fail : e <> Normal -> step_e hash s o e = Done s' ->
    exists i', step_i i o (threw_s e) = Done i' /\ ideal_rel s' i').
  { intros Ne E. assert (T : threw_s e = true) by (destruct e; easy). rewrite T.
    specialize (Ha Ne).
    destruct o as [fs|v|v| |b|b d|b|b name v|b name f|b name|b]; try discriminate.
    - assert (E' : Done s = Done s') by (destruct e; easy). injection E' as <-. cbn. eauto.
    - assert (E' : Done s = Done s') by (destruct e; easy). injection E' as <-. cbn. eauto.
    - assert (E' : (x <- var (s_maps s) b ;; _ <- var (s_vecs s) v ;; x' <- left_reg hash e x name ;;
          Done (Values (set_nth (s_vecs s) v (Some [])) (set_nth (s_maps s) b (Some x')))) = Done s') by (destruct e; easy).
      clear E. destruct (var (s_maps s) b) as [x|] eqn:Eb; cbn [bind] in E'; [|discriminate].
      destruct (var (s_vecs s) v) as [y|] eqn:Ev; cbn [bind] in E'; [|discriminate].
      destruct (left_reg hash e x name) as [x'|] eqn:El; cbn [bind] in E'; [|discriminate].
      injection E' as <-. cbn [step_i]. rewrite <- Rv, Ev. cbn [bind]. eexists. split; [reflexivity|].
      split; [reflexivity|]. cbn [s_maps i_regs].
      destruct (ideal_var _ _ _ _ R Eb) as (r & Er & Sr).
      rewrite <- (set_nth_id _ _ _ (var_nth _ _ _ Er)). apply Forall2_set_nth; [exact Rm|].
      destruct e; cbn [left_reg] in El; [easy|now injection El as <-|].
      destruct r as [f|]; cbn in *.
      + destruct Sr as (sh & g & Gd & Eg). destruct (room_good x sh g name Gd) as (x1 & sh1 & E1 & G1).
        rewrite E1 in El. injection El as <-. eauto.
      + subst x. unfold room in El. rewrite moved_find in El. discriminate.
    - assert (E' : (x <- var (s_maps s) b ;; x' <- left_reg hash e x name ;;
          Done (Values (s_vecs s) (set_nth (s_maps s) b (Some x')))) = Done s') by (destruct e; easy).
      clear E. destruct (var (s_maps s) b) as [x|] eqn:Eb; cbn [bind] in E'; [|discriminate].
      destruct (left_reg hash e x name) as [x'|] eqn:El; cbn [bind] in E'; [|discriminate].
      injection E' as <-. cbn [step_i]. eexists. split; [reflexivity|].
      split; [exact Rv|]. cbn [s_maps i_regs].
      destruct (ideal_var _ _ _ _ R Eb) as (r & Er & Sr).
      rewrite <- (set_nth_id _ _ _ (var_nth _ _ _ Er)). apply Forall2_set_nth; [exact Rm|].
      destruct e; cbn [left_reg] in El; [easy|now injection El as <-|].
      destruct r as [f0|]; cbn in *.
      + destruct Sr as (sh & g & Gd & Eg). destruct (room_good x sh g name Gd) as (x1 & sh1 & E1 & G1).
        rewrite E1 in El. injection El as <-. eauto.
      + subst x. unfold room in El. rewrite moved_find in El. discriminate. }
  destruct e; [|apply Fail; easy|apply Fail; easy]. clear Fail Ha. cbn [step_e threw_s].
  assert (Add : forall b x x' r name fs, insertOrAssign bytes_eqb hash x name fs = Done x' ->
     var (s_maps s) b = Done x -> var (i_regs i) b = Done r -> stands x r ->
     exists f, use r = Done f /\ Forall2 (opt_rel stands) (set_nth (s_maps s) b (Some x'))
        (set_nth (i_regs i) b (Some (Some (update f name (Some fs)))))).
  { intros b x x' r name fs EI Eb Er Sr. destruct r as [f|]; cbn in Sr.
    2: { subst x. unfold insertOrAssign in EI. rewrite moved_find in EI. discriminate. }
    exists f. split; [reflexivity|]. apply Forall2_set_nth; [exact Rm|].
    destruct Sr as (sh & g & Gd & Eg).
    destruct (good_add bytes_eqb hash bytes_dec x sh g name fs Gd) as (x1 & E1 & G1).
    rewrite E1 in EI. injection EI as <-. cbn. do 2 eexists. split; [exact G1|].
    intros k. cbn [ideal_step]. unfold update. now rewrite Eg. }
  destruct o as [fs|v|v| |b|b d|b|b name v|b name f|b name|b]; try discriminate; cbn [step_s step_i].
  - intros [= <-]. eexists. split; [reflexivity|]. split; [|exact Rm]. cbn. congruence.
  - rewrite <- Rv. destruct (var (s_vecs s) v) as [x|]; cbn [bind]; [|discriminate]. intros [= <-].
    eexists. split; [reflexivity|]. split; [|exact Rm]. cbn. congruence.
  - rewrite <- Rv. destruct (var (s_vecs s) v) as [x|]; cbn [bind]; [|discriminate]. intros [= <-].
    eexists. split; [reflexivity|]. split; [|exact Rm]. cbn. congruence.
  - intros [= <-]. eexists. split; [reflexivity|]. split; [exact Rv|].
    apply Forall2_app; [exact Rm|]. constructor; [|constructor]. cbn. do 2 eexists.
    split; [apply good_empty|reflexivity].
  - destruct (var (s_maps s) b) as [x|] eqn:Eb; cbn [bind]; [|discriminate]. intros [= <-].
    destruct (ideal_var _ _ _ _ R Eb) as (r & -> & Sr). cbn [bind]. eexists. split; [reflexivity|].
    split; [exact Rv|]. apply Forall2_app; [|constructor; [exact Sr|constructor]].
    apply Forall2_set_nth; [exact Rm|]. reflexivity.
  - destruct (var (s_maps s) b) as [x|] eqn:Eb; cbn [bind]; [|discriminate].
    destruct (var (s_maps s) d) as [y|] eqn:Ed; cbn [bind]; [|discriminate]. intros [= <-].
    destruct (ideal_var _ _ _ _ R Eb) as (r & -> & Sr). destruct (ideal_var _ _ _ _ R Ed) as (q & -> & Sq).
    cbn [bind]. eexists. split; [reflexivity|]. split; [exact Rv|].
    apply Forall2_set_nth; [apply Forall2_set_nth|]; assumption.
  - destruct (var (s_maps s) b) as [x|] eqn:Eb; cbn [bind]; [|discriminate]. intros [= <-].
    destruct (ideal_var _ _ _ _ R Eb) as (r & -> & Sr). cbn [bind]. eexists. split; [reflexivity|].
    split; [exact Rv|]. apply Forall2_set_nth; [exact Rm|exact I].
  - destruct (var (s_maps s) b) as [x|] eqn:Eb; cbn [bind]; [|discriminate].
    destruct (ideal_var _ _ _ _ R Eb) as (r & Er & Sr). rewrite Er, <- Rv.
    destruct (var (s_vecs s) v) as [y|] eqn:Ev; cbn [bind]; [|discriminate].
    destruct (insertOrAssign bytes_eqb hash x name y) as [x'|] eqn:EI; cbn [bind]; [|discriminate]. intros [= <-].
    destruct (Add b x x' r name y EI Eb Er Sr) as (f & -> & A). cbn [bind]. eexists. split; [reflexivity|].
    split; [cbn; congruence|exact A].
  - destruct (var (s_maps s) b) as [x|] eqn:Eb; cbn [bind]; [|discriminate].
    destruct (ideal_var _ _ _ _ R Eb) as (r & Er & Sr). rewrite Er. cbn [bind].
    destruct (insertOrAssign bytes_eqb hash x name [f]) as [x'|] eqn:EI; cbn [bind]; [|discriminate]. intros [= <-].
    destruct (Add b x x' r name [f] EI Eb Er Sr) as (g & -> & A). cbn [bind]. eexists. split; [reflexivity|].
    split; [exact Rv|exact A].
  - destruct (var (s_maps s) b) as [x|] eqn:Eb; cbn [bind]; [|discriminate]. intros [= <-].
    destruct (ideal_var _ _ _ _ R Eb) as (r & -> & Sr). cbn [bind]. eexists. split; [reflexivity|].
    split; [exact Rv|]. apply Forall2_set_nth; [exact Rm|]. destruct r as [f|]; cbn in *.
    + destruct Sr as (sh & g & Gd & Eg). do 2 eexists. split; [exact (good_clear hash _ _ _ Gd)|reflexivity].
    + now subst x.
Qed.

Lemma ideal_runs os : forall es s i s', ideal_rel s i -> Forall (fun o => removes o = false) os ->
  Forall2 (fun o e => e <> Normal -> allocates o = true) os es ->
  runs_e hash s os es = Done s' ->
  exists i', runs_i i os (map threw_s es) = Done i' /\ ideal_rel s' i'.
Proof.
  induction os as [|o os IH]; intros es s i s' R Fr Fa E; inversion Fa as [|? e ? es' A Fa']; subst; cbn [runs_e runs_i map] in *.
  - injection E as <-. eauto.
  - inversion Fr as [|? ? Ro Fr']; subst.
    destruct (step_e hash s o e) as [s1|] eqn:E1; cbn [bind] in E; [|discriminate].
    destruct (ideal_step s i o e s1 R Ro A E1) as (i1 & -> & R1). cbn [bind].
    exact (IH es' s1 i1 s' R1 Fr' Fa' E).
Qed.

Lemma ideal_lookup s i b name : ideal_rel s i -> lookup_s hash s b name = lookup_i i b name.
Proof.
  intros [Rv Rm]. unfold lookup_s, lookup_i. pose proof (var_rel _ _ _ b Rm) as V.
  destruct (var (s_maps s) b) as [x|f]; inversion V as [? r [A _] E1 E2|]; subst; cbn [bind]; [|reflexivity].
  destruct r as [f|]; cbn in *.
  - destruct A as (sh & g & Gd & Eg). rewrite (good_find bytes_eqb hash bytes_dec x sh g name Gd). now rewrite Eg.
  - subst x. reflexivity.
Qed.
End Ideal.
