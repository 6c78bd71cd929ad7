(** C68: what the references and pointers to commands that [add] and [get] return refer to
    while registries are changed, moved and destroyed.

    MapMem.v runs the registry on two heaps; MapMemSpec.v says what to expect. *)
From Coq Require Import ZArith Bool PeanoNat Lia List.
From Verif Require Import Util Base Mem MemProofs MemOwners VectorMem VectorMemProofs UMap UMapRel UMapIter.
From Verif Require Import MapMem MapMemSpec MapMemProofs MapMemErase MapMemWorld UMap.
Import ListNotations.

Section C68.
Context {K V : Type}.
Variable keqb : K -> K -> bool.
Variable hash : K -> Z.
Variable movedK : K -> K.
Variable movedV : V -> V.
Variable sizeN sizeI W : nat.
Hypothesis keqb_eq : forall a b, keqb a b = true <-> a = b.
Hypothesis sizeI_pos : 0 < sizeI.
(** A node contains three indices. *)
Hypothesis sizeN_big : 3 * sizeI <= sizeN.
Hypothesis sizeN_fits : sizeN < W.

Local Notation mrun os := (mruns keqb hash movedK movedV sizeN sizeI W (mstart (K := K) (V := V)) os).
Local Notation mstep := (mstep keqb hash movedK movedV sizeN sizeI W).
Local Notation srun os := (sruns keqb hash (sstart (K := K) (V := V)) os).
Local Notation roomy_all os := (always_roomy keqb hash sizeN W (sstart (K := K) (V := V)) os).
Local Notation wrel := (wrel sizeN sizeI W).

(** Programs do on memory what they do on shelves: they stop at the same place for the same
    reason, and reading through any of the pointers gives the same. *)
Theorem C68_programs : forall os, roomy_all os ->
  match srun os with
  | Done s => exists w, mrun os = Done w /\ length (mw_ptrs w) = length (s_ptrs s) /\ forall r, mread w r = sread s r
  | Fault f => mrun os = Fault f
  end.
Proof.
  intros os F.
  pose proof (runs_ok keqb hash movedK movedV sizeN sizeI W sizeI_pos sizeN_big sizeN_fits os _ _
                (wrel_start sizeN sizeI W) F) as H.
  inversion H as [w s R E1 E2|f E1 E2]; [|reflexivity].
  exists w. split; [reflexivity|]. split.
  - rewrite (w_ptrs _ _ _ _ _ R). apply map_length.
  - intros r. eapply read_ok; eassumption.
Qed.

(** ** Single steps *)

Lemma roomy_end os : forall s s' : @sworld K V, always_roomy keqb hash sizeN W s os -> sruns keqb hash s os = Done s' ->
  roomy sizeN W s'.
Proof.
  induction os as [|o os IH]; cbn [sruns always_roomy]; intros s s' (F & F') E.
  - injection E as <-. exact F.
  - destruct (MapMemSpec.sstep keqb hash s o) as [s1|] eqn:E1; [|discriminate]. cbn [bind] in E. apply (IH s1); [now apply F'|exact E].
Qed.

Lemma reach os w s o w' : roomy_all os -> srun os = Done s -> mrun os = Done w -> mstep w o = Done w' ->
  wrel w s /\ exists s', sstep keqb hash s o = Done s' /\ wrel w' s'.
Proof.
  intros F Es Ew Est.
  pose proof (runs_ok keqb hash movedK movedV sizeN sizeI W sizeI_pos sizeN_big sizeN_fits os _ _
                (wrel_start sizeN sizeI W) F) as H.
  rewrite Es, Ew in H. inversion H as [? ? R|]; subst. split; [exact R|].
  pose proof (step_ok keqb hash movedK movedV sizeN sizeI W sizeI_pos sizeN_big sizeN_fits w s o R
                (roomy_end _ _ _ F Es)) as H1.
  rewrite Est in H1. inversion H1 as [? s' R' E1 E2|]; subst. now exists s'.
Qed.

Lemma read_at (w : mworld K V) s r b id i g : wrel w s -> nth_error (s_ptrs s) r = Some (Some (id, i)) ->
  look (s_regs s) b = Some g -> g_shelf g = Some id ->
  mread w r = match nth_error (iterate (g_map g)) i with Some kv => Done kv | None => Fault BadLifetime end.
Proof.
  intros R E Eg Es. rewrite (read_ok sizeN sizeI W sizeI_pos sizeN_big sizeN_fits _ _ r R). unfold sread. rewrite E.
  pose proof (find_look (has_shelf id) (s_regs s)) as Hf.
  assert (H0 : forall x : option (@registry K V), has_shelf id x = true -> x <> None) by (intros [|]; cbn; congruence).
  specialize (Hf H0). destruct (List.find (has_shelf id) (s_regs s)) as [[g1|]|].
  - destruct Hf as (c & Ec & Hc). cbn in Hc. destruct (g_shelf g1) as [x|] eqn:E1; [|discriminate].
    apply Nat.eqb_eq in Hc. subst x. assert (b = c) as <- by (eapply (shelf_unique sizeN sizeI W w s); eassumption).
    assert (g1 = g) as -> by congruence. reflexivity.
  - contradiction.
  - specialize (Hf _ _ Eg). cbn in Hf. rewrite Es, Nat.eqb_refl in Hf. discriminate.
Qed.

Lemma read_gone (w : mworld K V) s r id i : wrel w s -> nth_error (s_ptrs s) r = Some (Some (id, i)) ->
  (forall b g, look (s_regs s) b = Some g -> g_shelf g <> Some id) -> mread w r = Fault UseAfterFree.
Proof.
  intros R E N. rewrite (read_ok sizeN sizeI W sizeI_pos sizeN_big sizeN_fits _ _ r R). unfold sread. rewrite E.
  pose proof (find_look (has_shelf id) (s_regs s)) as Hf.
  assert (H0 : forall x : option (@registry K V), has_shelf id x = true -> x <> None) by (intros [|]; cbn; congruence).
  specialize (Hf H0). destruct (List.find (has_shelf id) (s_regs s)) as [[g1|]|]; [|contradiction|reflexivity].
  destruct Hf as (c & Ec & Hc). exfalso. apply (N _ _ Ec). cbn in Hc.
  destruct (g_shelf g1) as [x|]; [|discriminate]. apply Nat.eqb_eq in Hc. congruence.
Qed.

Lemma read_null (w : mworld K V) s r : wrel w s -> nth_error (s_ptrs s) r = None \/ nth_error (s_ptrs s) r = Some None ->
  mread w r = Fault NullDeref.
Proof. intros R E. rewrite (read_ok sizeN sizeI W sizeI_pos sizeN_big sizeN_fits _ _ r R). unfold sread. destruct E as [-> | ->]; reflexivity. Qed.

Lemma svar_look s b (g : @registry K V) : svar s b = Done g <-> look (s_regs s) b = Some g.
Proof. unfold svar, look. destruct (nth_error (s_regs s) b) as [[x|]|]; split; congruence. Qed.

Lemma insert_places (u u' : umap K V) k v o : findNodeIndex keqb hash u k = Done o -> insertOrAssign keqb hash u k v = Done u' ->
  match o with
  | Some j => iterate u' = UMap.set_nth (iterate u) j (k, v) /\ j < size u
  | None => iterate u' = iterate u ++ [(k, v)]
  end.
Proof.
  unfold insertOrAssign. intros E. rewrite E. cbn [bind]. destruct o as [i|].
  - apply findNodeIndex_sound in E. destruct E as (n & E & Q). unfold at_. rewrite E. cbn [bind].
    intros [= <-]. apply keqb_eq in Q. subst k. unfold iterate. cbn [nodes]. split; [now rewrite map_set_nth|].
    apply nth_error_Some. congruence.
  - destruct (if load_exceeds (S (length (nodes u))) (length (buckets u))
              then rehash hash u (length (nodes u) * 2) else Done u) as [m1|] eqn:R; cbn [bind]; [|discriminate].
    assert (I : iterate m1 = iterate u).
    { destruct (load_exceeds _ _); [now apply rehash_entries in R|congruence]. }
    intros H. apply insertNode_entries in H. rewrite H, <- I. unfold iterate. cbn [nodes]. now rewrite map_app.
Qed.

Lemma erase_places (u u' : umap K V) k o : findNodeIndex keqb hash u k = Done o -> erase keqb hash u k = Done u' ->
  match o with
  | Some j => exists x, nth_error (iterate u) (size u - 1) = Some x /\ j < size u /\
                iterate u' = firstn (size u - 1) (UMap.set_nth (iterate u) j x)
  | None => u' = u
  end.
Proof.
  unfold erase. intros E. rewrite E. cbn [bind]. destruct o as [i|]; [|congruence].
  apply findNodeIndex_sound in E. destruct E as (n & E & Q).
  destruct (unlink u i) as [m1|] eqn:U; cbn [bind]; [|discriminate]. apply unlink_entries in U.
  destruct (relocate m1 i) as [m2|] eqn:R; cbn [bind]; [|discriminate]. intros P.
  assert (I : i < size u) by (apply nth_error_Some; congruence).
  assert (L : length (nodes m1) = size u).
  { assert (X : length (iterate m1) = length (iterate u)) by now rewrite U. unfold iterate in X. now rewrite !map_length in X. }
  destruct (nth_error (iterate u) (size u - 1)) as [x|] eqn:X.
  2: { exfalso. apply nth_error_None in X. unfold iterate in X. rewrite map_length in X. unfold size in *. lia. }
  exists x. split; [reflexivity|]. split; [exact I|].
  rewrite Nat.sub_1_r, <- L, <- U in X. rewrite Nat.sub_1_r, <- L, <- U.
  eapply relocate_pop_entries; eauto. lia.
Qed.

Lemma iterate_length (u : umap K V) : length (iterate u) = size u.
Proof. apply map_length. Qed.

(** The reference that [add] returns is to the command that was added. *)
Theorem C68_add_reference : forall os s w b k v w',
  roomy_all os -> srun os = Done s -> mrun os = Done w -> mstep w (MAdd b k v) = Done w' ->
  mread w' 0 = Done (k, v).
Proof.
  intros os s w b k v w' F Es Ew St. destruct (reach _ _ _ _ _ F Es Ew St) as (R & s' & Est & R').
  cbn [MapMemSpec.sstep] in Est. destruct (svar s b) as [g|] eqn:Eg; [|discriminate]. cbn [bind] in Est.
  apply svar_look in Eg. pose proof (look_lt _ _ _ Eg) as Lb.
  destruct (findNodeIndex keqb hash (g_map g) k) as [o|] eqn:Ef; [|discriminate]. cbn [bind] in Est.
  destruct (insertOrAssign keqb hash (g_map g) k v) as [u|] eqn:Ei; [|discriminate]. cbn [bind] in Est.
  pose proof (insert_places _ _ _ _ _ Ef Ei) as P.
  destruct (wrel_rep _ _ _ _ _ _ _ R Eg) as (m & Em & Rm & A).
  assert (Y : forall g' p next, s' = SWorld (UMap.set_nth (s_regs s) b (Some g')) (p :: s_ptrs s) next ->
            forall id i, p = Some (id, i) -> g_shelf g' = Some id -> nth_error (iterate (g_map g')) i = Some (k, v) ->
            mread w' 0 = Done (k, v)).
  { intros g' p next -> id i -> Sh X. erewrite (read_at _ _ 0 b id i g' R'); [now rewrite X|reflexivity| |exact Sh].
    cbn [s_regs]. rewrite look_set by exact Lb. unfold oput. now rewrite Nat.eqb_refl. }
  destruct o as [j|].
  - destruct P as (P & L). injection Est as <-.
    destruct (ptr_place sizeN sizeI W sizeI_pos sizeN_big sizeN_fits m g _ j Rm A L) as (_ & id & Pl & Sh & _).
    eapply Y; [reflexivity|exact Pl|exact Sh|]. cbn [with_map g_map]. rewrite P.
    apply uset_nth_eq. now rewrite iterate_length.
  - assert (X : nth_error (iterate u) (size (g_map g)) = Some (k, v)).
    { rewrite P, nth_error_app2, iterate_length, Nat.sub_diag by (rewrite iterate_length; lia). reflexivity. }
    destruct (size (g_map g) <? g_length g) eqn:El; injection Est as <-.
    + apply Nat.ltb_lt in El. destruct A as (_ & O & C).
      assert (exists id, g_shelf g = Some id) as (id & Sh).
      { rewrite <- O. destruct (rp_n _ _ _ _ _ _ Rm) as [_ H2 _ _ _|k0 cap Hh]; [lia|].
        rewrite (vh_buf _ _ _ _ _ _ _ Hh). now exists k0. }
      eapply Y; [reflexivity|unfold place; now rewrite Sh|exact Sh|exact X].
    + eapply Y; [reflexivity|reflexivity|reflexivity|exact X].
Qed.

(** The pointer that [get] returns is null or to a command of this name, and it is null
    exactly if the name is not found. *)
Theorem C68_get_reference : forall os s w b k w' g,
  roomy_all os -> srun os = Done s -> mrun os = Done w -> svar s b = Done g -> mstep w (MGet b k) = Done w' ->
  match UMap.find keqb hash (g_map g) k with
  | Done (Some v) => mread w' 0 = Done (k, v)
  | _ => mread w' 0 = Fault NullDeref
  end.
Proof.
  intros os s w b k w' g F Es Ew Eg St. destruct (reach _ _ _ _ _ F Es Ew St) as (R & s' & Est & R').
  cbn [MapMemSpec.sstep] in Est. rewrite Eg in Est. cbn [bind] in Est. apply svar_look in Eg.
  unfold UMap.find. destruct (findNodeIndex keqb hash (g_map g) k) as [o|] eqn:Ef; [|discriminate]. cbn [bind] in *.
  injection Est as <-. destruct o as [j|].
  - apply findNodeIndex_sound in Ef. destruct Ef as (n & En & Q). apply keqb_eq in Q. rewrite (at_some _ _ _ En). cbn [bind].
    destruct (wrel_rep _ _ _ _ _ _ _ R Eg) as (m & Em & Rm & A).
    assert (j < length (nodes (g_map g))) as L by (apply nth_error_Some; congruence).
    destruct (ptr_place sizeN sizeI W sizeI_pos sizeN_big sizeN_fits m g _ j Rm A L) as (_ & id & Pl & Sh & _).
    erewrite (read_at _ _ 0 b id j g R'); [|cbn; now rewrite Pl|exact Eg|exact Sh].
    unfold iterate. rewrite nth_error_map, En. cbn. now rewrite Q.
  - apply (read_null _ _ 0 R'). now right.
Qed.

Lemma aims_look s r b i (g : @registry K V) : aims s r b i -> svar s b = Done g ->
  exists id, nth_error (s_ptrs s) r = Some (Some (id, i)) /\ look (s_regs s) b = Some g /\ g_shelf g = Some id.
Proof.
  intros (id & g' & E & Eg & Sh) Ev. apply look_nth in Eg. apply svar_look in Ev.
  assert (g' = g) as -> by congruence. now exists id.
Qed.

(** Reading through a pointer reads the place it is to. *)
Theorem C68_read : forall os s w r b i g,
  roomy_all os -> srun os = Done s -> mrun os = Done w -> aims s r b i -> svar s b = Done g ->
  mread w r = match nth_error (iterate (g_map g)) i with Some kv => Done kv | None => Fault BadLifetime end.
Proof.
  intros os s w r b i g F Es Ew Ai Eg. destruct (aims_look _ _ _ _ _ Ai Eg) as (id & Ep & El & Sh).
  pose proof (runs_ok keqb hash movedK movedV sizeN sizeI W sizeI_pos sizeN_big sizeN_fits os _ _
                (wrel_start sizeN sizeI W) F) as H.
  rewrite Es, Ew in H. inversion H as [? ? R|]; subst. eapply read_at; eassumption.
Qed.

(** A pointer that is to no registry any more dangles or is null. *)
Theorem C68_dangling : forall os s w r,
  roomy_all os -> srun os = Done s -> mrun os = Done w -> (forall b i, ~ aims s r b i) ->
  mread w r = Fault UseAfterFree \/ mread w r = Fault NullDeref.
Proof.
  intros os s w r F Es Ew N.
  pose proof (runs_ok keqb hash movedK movedV sizeN sizeI W sizeI_pos sizeN_big sizeN_fits os _ _
                (wrel_start sizeN sizeI W) F) as H.
  rewrite Es, Ew in H. inversion H as [? ? R|]; subst.
  destruct (nth_error (s_ptrs s) r) as [[[id i]|]|] eqn:E.
  - left. eapply read_gone; [exact R|exact E|]. intros b g Eg Sh. apply (N b i). exists id, g.
    split; [exact E|]. split; [now apply look_nth|exact Sh].
  - right. apply (read_null _ _ _ R). now right.
  - right. apply (read_null _ _ _ R). now left.
Qed.

(** Adding a command. *)
Theorem C68_add : forall os s w b k v w' r i g o,
  roomy_all os -> srun os = Done s -> mrun os = Done w -> aims s r b i -> svar s b = Done g ->
  findNodeIndex keqb hash (g_map g) k = Done o -> mstep w (MAdd b k v) = Done w' ->
  mread w' (S r) =
    match o with
    | Some j => if i =? j then Done (k, v) else mread w r
    | None =>
        if size (g_map g) <? g_length g then if i =? size (g_map g) then Done (k, v) else mread w r
        else Fault UseAfterFree
    end.
Proof.
  intros os s w b k v w' r i g o F Es Ew Ai Eg Ef St. destruct (reach _ _ _ _ _ F Es Ew St) as (R & s' & Est & R').
  destruct (aims_look _ _ _ _ _ Ai Eg) as (id & Ep & El & Sh). pose proof (look_lt _ _ _ El) as Lb.
  cbn [MapMemSpec.sstep] in Est. rewrite Eg in Est. cbn [bind] in Est. rewrite Ef in Est. cbn [bind] in Est.
  destruct (insertOrAssign keqb hash (g_map g) k v) as [u|] eqn:Ei; [|discriminate]. cbn [bind] in Est.
  pose proof (insert_places _ _ _ _ _ Ef Ei) as P. rewrite (read_at _ _ _ _ _ _ _ R Ep El Sh).
  assert (Y : forall p next, s' = SWorld (UMap.set_nth (s_regs s) b (Some (with_map g u))) (p :: s_ptrs s) next ->
            mread w' (S r) = match nth_error (iterate u) i with Some kv => Done kv | None => Fault BadLifetime end).
  { intros p next ->. erewrite (read_at _ _ (S r) b id i (with_map g u) R'); [reflexivity|exact Ep| |exact Sh].
    cbn [s_regs]. rewrite look_set by exact Lb. unfold oput. now rewrite Nat.eqb_refl. }
  destruct o as [j|].
  - destruct P as (P & L). injection Est as <-. rewrite (Y _ _ eq_refl), P. destruct (Nat.eqb_spec i j) as [->|N].
    + now rewrite uset_nth_eq by (now rewrite iterate_length).
    + now rewrite uset_nth_neq by congruence.
  - destruct (size (g_map g) <? g_length g) eqn:Els; injection Est as <-.
    + rewrite (Y _ _ eq_refl), P. destruct (Nat.eqb_spec i (size (g_map g))) as [->|N].
      * rewrite nth_error_app2, iterate_length, Nat.sub_diag by (rewrite iterate_length; lia). reflexivity.
      * destruct (Nat.lt_ge_cases i (size (g_map g))) as [L|L].
        -- now rewrite nth_error_app1 by (now rewrite iterate_length).
        -- assert (nth_error (iterate (g_map g) ++ [(k, v)]) i = None) as ->
             by (apply nth_error_None; rewrite app_length, iterate_length; cbn; lia).
           assert (nth_error (iterate (g_map g)) i = None) as -> by (apply nth_error_None; rewrite iterate_length; lia).
           reflexivity.
    + eapply read_gone; [exact R'|exact Ep|]. cbn [s_regs]. intros c g'. rewrite look_set by exact Lb. unfold oput.
      destruct (Nat.eqb_spec c b) as [->|N].
      * intros [= <-]. cbn. pose proof (shelf_old sizeN sizeI W w s b g id R El Sh). intros X. injection X as X. lia.
      * intros Ec Sc. apply N. symmetry. eapply (shelf_unique sizeN sizeI W w s); eassumption.
Qed.

(** Removing a command: the last one takes its place. *)
Theorem C68_remove : forall os s w b k w' r i g o,
  roomy_all os -> srun os = Done s -> mrun os = Done w -> aims s r b i -> svar s b = Done g ->
  findNodeIndex keqb hash (g_map g) k = Done o -> mstep w (MRemove b k) = Done w' ->
  mread w' r =
    match o with
    | Some j =>
        if size (g_map g) - 1 <=? i then Fault BadLifetime
        else if i =? j then
          match nth_error (iterate (g_map g)) (size (g_map g) - 1) with Some kv => Done kv | None => Fault BadLifetime end
        else mread w r
    | None => mread w r
    end.
Proof.
  intros os s w b k w' r i g o F Es Ew Ai Eg Ef St. destruct (reach _ _ _ _ _ F Es Ew St) as (R & s' & Est & R').
  destruct (aims_look _ _ _ _ _ Ai Eg) as (id & Ep & El & Sh). pose proof (look_lt _ _ _ El) as Lb.
  cbn [MapMemSpec.sstep] in Est. rewrite Eg in Est. cbn [bind] in Est.
  destruct (erase keqb hash (g_map g) k) as [u|] eqn:Ei; [|discriminate]. cbn [bind] in Est. injection Est as <-.
  pose proof (erase_places _ _ _ _ Ef Ei) as P. rewrite (read_at _ _ _ _ _ _ _ R Ep El Sh).
  erewrite (read_at _ _ r b id i (with_map g u) R'); [|exact Ep| |exact Sh].
  2: { cbn [s_regs]. rewrite look_set by exact Lb. unfold oput. now rewrite Nat.eqb_refl. }
  cbn [with_map g_map]. destruct o as [j|]; [|now rewrite P].
  destruct P as (x & Ex & L & P). rewrite P, Ex.
  destruct (size (g_map g) - 1 <=? i) eqn:Ei'.
  - apply Nat.leb_le in Ei'. assert (nth_error (firstn (size (g_map g) - 1) (UMap.set_nth (iterate (g_map g)) j x)) i = None) as ->.
    { apply nth_error_None. rewrite firstn_length. lia. }
    reflexivity.
  - apply Nat.leb_gt in Ei'. rewrite nth_error_firstn_lt by exact Ei'.
    destruct (Nat.eqb_spec i j) as [->|N].
    + now rewrite uset_nth_eq by (now rewrite iterate_length).
    + now rewrite uset_nth_neq by congruence.
Qed.

(** Clearing a registry and destroying it. *)
Theorem C68_clear : forall os s w b w' r i,
  roomy_all os -> srun os = Done s -> mrun os = Done w -> aims s r b i -> mstep w (MClear b) = Done w' ->
  mread w' r = Fault BadLifetime.
Proof.
  intros os s w b w' r i F Es Ew Ai St. destruct (reach _ _ _ _ _ F Es Ew St) as (R & s' & Est & R').
  cbn [MapMemSpec.sstep] in Est. destruct (svar s b) as [g|] eqn:Eg; [|discriminate]. cbn [bind] in Est. injection Est as <-.
  destruct (aims_look _ _ _ _ _ Ai Eg) as (id & Ep & El & Sh). pose proof (look_lt _ _ _ El) as Lb.
  erewrite (read_at _ _ r b id i _ R'); [|exact Ep| |].
  2: { cbn [s_regs]. rewrite look_set by exact Lb. unfold oput. now rewrite Nat.eqb_refl. }
  2: exact Sh.
  cbn. now destruct i.
Qed.

Theorem C68_destroy : forall os s w b w' r i,
  roomy_all os -> srun os = Done s -> mrun os = Done w -> aims s r b i -> mstep w (MDestroy b) = Done w' ->
  mread w' r = Fault UseAfterFree.
Proof.
  intros os s w b w' r i F Es Ew Ai St. destruct (reach _ _ _ _ _ F Es Ew St) as (R & s' & Est & R').
  cbn [MapMemSpec.sstep] in Est. destruct (svar s b) as [g|] eqn:Eg; [|discriminate]. cbn [bind] in Est. injection Est as <-.
  destruct (aims_look _ _ _ _ _ Ai Eg) as (id & Ep & El & Sh). pose proof (look_lt _ _ _ El) as Lb.
  eapply read_gone; [exact R'|exact Ep|]. cbn [s_regs]. intros c g'. rewrite look_set by exact Lb. unfold oput.
  destruct (Nat.eqb_spec c b) as [->|N]; [discriminate|].
  intros Ec Sc. apply N. symmetry. eapply (shelf_unique sizeN sizeI W w s); eassumption.
Qed.

(** Everything else leaves a pointer as it is: operations on other registries, lookups, new
    registries, and moving registries, also the one the pointer is to. *)
Lemma reads_same (w w' : mworld K V) s s' r r' : wrel w s -> wrel w' s' ->
  nth_error (s_ptrs s') r' = nth_error (s_ptrs s) r ->
  (forall id i, nth_error (s_ptrs s) r = Some (Some (id, i)) ->
     (forall b g, look (s_regs s) b = Some g -> g_shelf g = Some id ->
        exists b' g', look (s_regs s') b' = Some g' /\ g_shelf g' = Some id /\ iterate (g_map g') = iterate (g_map g)) /\
     (forall b' g', look (s_regs s') b' = Some g' -> g_shelf g' = Some id ->
        exists b g, look (s_regs s) b = Some g /\ g_shelf g = Some id)) ->
  mread w' r' = mread w r.
Proof.
  intros R R' Ep H. destruct (nth_error (s_ptrs s) r) as [[[id i]|]|] eqn:E.
  - destruct (H id i eq_refl) as (H1 & H2).
    pose proof (find_look (has_shelf id) (s_regs s)) as Hf.
    assert (H0 : forall x : option (@registry K V), has_shelf id x = true -> x <> None) by (intros [|]; cbn; congruence).
    specialize (Hf H0). destruct (List.find (has_shelf id) (s_regs s)) as [[g1|]|]; [|contradiction|].
    + destruct Hf as (b & Eb & Hb). cbn in Hb. destruct (g_shelf g1) as [x|] eqn:E1; [|discriminate].
      apply Nat.eqb_eq in Hb. subst x. destruct (H1 _ _ Eb E1) as (b' & g' & Eb' & E1' & It).
      rewrite (read_at _ _ _ _ _ _ _ R E Eb E1), (read_at _ _ _ _ _ _ _ R' Ep Eb' E1'). now rewrite It.
    + assert (N : forall b g, look (s_regs s) b = Some g -> g_shelf g <> Some id).
      { intros b g Eg Sh. specialize (Hf _ _ Eg). cbn in Hf. rewrite Sh, Nat.eqb_refl in Hf. discriminate. }
      rewrite (read_gone _ _ _ _ _ R E N). eapply read_gone; [exact R'|exact Ep|].
      intros b' g' Eb' Sh'. destruct (H2 _ _ Eb' Sh') as (b & g & Eg & Sh). exact (N _ _ Eg Sh).
  - rewrite (read_null _ _ _ R (or_intror E)). apply (read_null _ _ _ R'). now right.
  - rewrite (read_null _ _ _ R (or_introl E)). apply (read_null _ _ _ R'). now left.
Qed.

Theorem C68_elsewhere : forall os s w o w' r,
  roomy_all os -> srun os = Done s -> mrun os = Done w -> mstep w o = Done w' ->
  (forall b i, aims s r b i -> ~ touches o b) ->
  mread w' (newer o r) = mread w r.
Proof.
  intros os s w o w' r F Es Ew St N. destruct (reach _ _ _ _ _ F Es Ew St) as (R & s' & Est & R').
  assert (NA : forall b, touches o b -> forall id i g, nth_error (s_ptrs s) r = Some (Some (id, i)) ->
               look (s_regs s) b = Some g -> g_shelf g <> Some id).
  { intros b T id i g E Eg Sh. apply (N b i); [|exact T]. exists id, g. split; [exact E|]. split; [now apply look_nth|exact Sh]. }
  (* one registry that the pointer is not to is replaced *)
  assert (Y : forall b g g' ps next, look (s_regs s) b = Some g -> touches o b ->
            s' = SWorld (UMap.set_nth (s_regs s) b g') (ps ++ s_ptrs s) next -> newer o r = length ps + r ->
            (forall id k, g' = Some k -> g_shelf k = Some id -> g_shelf k = g_shelf g \/ s_next s <= id) ->
            mread w' (newer o r) = mread w r).
  { intros b g g' ps next Eg T -> -> Sh'. pose proof (look_lt _ _ _ Eg) as Lb. eapply reads_same; [exact R|exact R'| |].
    - cbn [s_ptrs]. rewrite nth_error_app2 by lia. f_equal. lia.
    - intros id i E. cbn [s_regs]. split.
      + intros c k Ek Sk. exists c, k. rewrite look_set by exact Lb. unfold oput. destruct (Nat.eqb_spec c b) as [->|].
        * exfalso. eapply NA; eassumption.
        * now split.
      + intros c k Ek Sk. rewrite look_set in Ek by exact Lb. unfold oput in Ek. destruct (Nat.eqb_spec c b) as [->|]; [|eauto].
        destruct (Sh' id k Ek Sk) as [X|X]; [exists b, g; split; [exact Eg|congruence]|].
        exfalso. pose proof (w_old _ _ _ _ _ R id i (nth_error_In _ _ E)). lia. }
  destruct o as [|b k v|b k|b k|b|b|b c|b]; cbn [MapMemSpec.sstep] in Est.
  - injection Est as <-. eapply reads_same; [exact R|exact R'|reflexivity|]. cbn [s_regs]. intros id i E. split.
    + intros b g Eb Sh. exists b, g. rewrite look_app. unfold oput. pose proof (look_lt _ _ _ Eb).
      destruct (Nat.eqb_spec b (length (s_regs s))); [lia|]. now split.
    + intros b g. rewrite look_app. unfold oput. destruct (b =? length (s_regs s)); [intros [= <-]; discriminate|eauto].
  - destruct (svar s b) as [g|] eqn:Eg; [|discriminate]. cbn [bind] in Est. apply svar_look in Eg.
    destruct (findNodeIndex keqb hash (g_map g) k) as [j|]; [|discriminate]. cbn [bind] in Est.
    destruct (insertOrAssign keqb hash (g_map g) k v) as [u|]; [|discriminate]. cbn [bind] in Est.
    destruct j as [j|]; [|destruct (size (g_map g) <? g_length g)]; injection Est as <-.
    + eapply (Y b g _ [_]); [exact Eg|reflexivity|reflexivity|reflexivity|]. intros id k0 [= <-] _. now left.
    + eapply (Y b g _ [_]); [exact Eg|reflexivity|reflexivity|reflexivity|]. intros id k0 [= <-] _. now left.
    + eapply (Y b g _ [_]); [exact Eg|reflexivity|reflexivity|reflexivity|]. intros id k0 [= <-] [= <-]. now right.
  - destruct (svar s b) as [g|] eqn:Eg; [|discriminate]. cbn [bind] in Est.
    destruct (findNodeIndex keqb hash (g_map g) k) as [j|]; [|discriminate]. cbn [bind] in Est. injection Est as <-.
    eapply reads_same; [exact R|exact R'|reflexivity|]. cbn [s_regs]. intros id i E. split; [|eauto].
    intros c g' Ec Sh. exists c, g'. now repeat split.
  - destruct (svar s b) as [g|] eqn:Eg; [|discriminate]. cbn [bind] in Est. apply svar_look in Eg.
    destruct (erase keqb hash (g_map g) k) as [u|]; [|discriminate]. cbn [bind] in Est. injection Est as <-.
    eapply (Y b g _ []); [exact Eg|reflexivity|reflexivity|reflexivity|]. intros id k0 [= <-] _. now left.
  - destruct (svar s b) as [g|] eqn:Eg; [|discriminate]. cbn [bind] in Est. apply svar_look in Eg. injection Est as <-.
    eapply (Y b g _ []); [exact Eg|reflexivity|reflexivity|reflexivity|]. intros id k0 [= <-] _. now left.
  - destruct (svar s b) as [g|] eqn:Eg; [|discriminate]. cbn [bind] in Est. apply svar_look in Eg. injection Est as <-.
    pose proof (look_lt _ _ _ Eg) as Lb.
    assert (X2 : forall i, look (UMap.set_nth (s_regs s) b (Some void_registry) ++ [Some g]) i =
                 oput (oput (look (s_regs s)) b (Some void_registry)) (length (s_regs s)) (Some g) i).
    { intros i. rewrite look_app, uset_length. unfold oput at 1 2. destruct (i =? _); [reflexivity|]. now apply look_set. }
    eapply reads_same; [exact R|exact R'|reflexivity|]. cbn [s_regs]. intros id i E. split.
    + intros c g' Ec Sh. destruct (Nat.eq_dec c b) as [->|Nc].
      * exists (length (s_regs s)), g. rewrite X2. unfold oput. rewrite Nat.eqb_refl. assert (g' = g) as -> by congruence. now split.
      * exists c, g'. rewrite X2. unfold oput. pose proof (look_lt _ _ _ Ec).
        destruct (Nat.eqb_spec c (length (s_regs s))); [lia|]. destruct (Nat.eqb_spec c b); [contradiction|]. now split.
    + intros c g'. rewrite X2. unfold oput. destruct (c =? length (s_regs s)); [intros [= <-]; eauto|].
      destruct (c =? b); [intros [= <-]; discriminate|eauto].
  - destruct (svar s b) as [g|] eqn:Eg; [|discriminate]. cbn [bind] in Est. apply svar_look in Eg.
    destruct (svar s c) as [k|] eqn:Ek; [|discriminate]. cbn [bind] in Est. apply svar_look in Ek.
    destruct (Nat.eqb_spec b c) as [|Nbc]; [discriminate|]. injection Est as <-.
    pose proof (look_lt _ _ _ Eg) as Lb. pose proof (look_lt _ _ _ Ek) as Lc.
    assert (X2 : forall i, look (UMap.set_nth (UMap.set_nth (s_regs s) b (Some k)) c (Some g)) i =
                 oput (oput (look (s_regs s)) b (Some k)) c (Some g) i).
    { intros i. rewrite look_set by now rewrite uset_length. unfold oput at 1 2. destruct (i =? c); [reflexivity|]. now apply look_set. }
    eapply reads_same; [exact R|exact R'|reflexivity|]. cbn [s_regs]. intros id i E. split.
    + intros d g' Ed Sh. destruct (Nat.eq_dec d b) as [->|Nb]; [|destruct (Nat.eq_dec d c) as [->|Nc]].
      * exists c, g. rewrite X2. unfold oput. rewrite Nat.eqb_refl. assert (g' = g) as -> by congruence. now split.
      * exists b, k. rewrite X2. unfold oput. destruct (Nat.eqb_spec b c); [contradiction|]. rewrite Nat.eqb_refl.
        assert (g' = k) as -> by congruence. now split.
      * exists d, g'. rewrite X2. unfold oput. destruct (Nat.eqb_spec d c); [contradiction|].
        destruct (Nat.eqb_spec d b); [contradiction|]. now split.
    + intros d g'. rewrite X2. unfold oput. destruct (d =? c); [intros [= <-]; eauto|].
      destruct (d =? b); [intros [= <-]; eauto|eauto].
  - destruct (svar s b) as [g|] eqn:Eg; [|discriminate]. cbn [bind] in Est. apply svar_look in Eg. injection Est as <-.
    eapply (Y b g _ []); [exact Eg|reflexivity|reflexivity|reflexivity|]. intros id k0 [=].
Qed.

(** The lengths of shelves are 0, 1, 2, 3, 4, 6, 9, 13, ... *)
Fixpoint shelf_length (n : nat) : nat := match n with O => 0 | S n => Nat.max (shelf_length n + 1) (shelf_length n * 3 / 2) end.

Theorem C68_lengths : forall os s b g,
  roomy_all os -> srun os = Done s -> svar s b = Done g ->
  size (g_map g) <= g_length g /\ exists n, g_length g = shelf_length n.
Proof.
  intros os s b g F Es Eg. apply svar_look in Eg. split.
  - pose proof (runs_ok keqb hash movedK movedV sizeN sizeI W sizeI_pos sizeN_big sizeN_fits os _ _
                  (wrel_start sizeN sizeI W) F) as H.
    rewrite Es in H. inversion H as [w ? R|]; subst.
    destruct (wrel_rep _ _ _ _ _ _ _ R Eg) as (m & Em & Rm & _ & _ & C). rewrite <- C.
    pose proof (vrep_le sizeN W ltac:(lia) _ _ _ (rp_n _ _ _ _ _ _ Rm)) as L. now rewrite map_length in L.
  - revert Es b g Eg.
    enough (Inv : forall os (w0 : mworld K V) (s0 s : @sworld K V), wrel w0 s0 -> always_roomy keqb hash sizeN W s0 os ->
              (forall b g, look (s_regs s0) b = Some g -> exists n, g_length g = shelf_length n) ->
              sruns keqb hash s0 os = Done s ->
              forall b g, look (s_regs s) b = Some g -> exists n, g_length g = shelf_length n).
    { intros Es. apply (Inv os _ _ _ (wrel_start sizeN sizeI W) F); [|exact Es]. intros [|b] g; discriminate. }
    clear os s F. induction os as [|o os IH]; cbn [sruns always_roomy]; intros w0 s0 s R (F & F') H E.
    + injection E as <-. exact H.
    + destruct (MapMemSpec.sstep keqb hash s0 o) as [s1|] eqn:E1; [|discriminate]. cbn [bind] in E.
      pose proof (step_ok keqb hash movedK movedV sizeN sizeI W sizeI_pos sizeN_big sizeN_fits w0 s0 o R F) as St.
      rewrite E1 in St. inversion St as [w1 ? R1|]; subst.
      apply (IH w1 s1 s R1); [now apply F'| |exact E]. clear IH E F' St R1.
      assert (Y : forall b g, look (s_regs s0) b = Some g -> forall o, (forall k, o = Some k -> exists n, g_length k = shelf_length n) ->
                  forall c k, look (UMap.set_nth (s_regs s0) b o) c = Some k -> exists n, g_length k = shelf_length n).
      { intros b g Eg o' Ho c k. rewrite look_set by (eapply look_lt; eassumption). unfold oput. destruct (c =? b); [apply Ho|apply H]. }
      destruct o as [|b k v|b k|b k|b|b|b c|b]; cbn [MapMemSpec.sstep] in E1.
      * injection E1 as <-. cbn [s_regs]. intros c g. rewrite look_app. unfold oput. destruct (c =? _); [|apply H].
        intros [= <-]. now exists 0.
      * destruct (svar s0 b) as [g|] eqn:Eg; [|discriminate]. cbn [bind] in E1. apply svar_look in Eg.
        destruct (findNodeIndex keqb hash (g_map g) k) as [j|]; [|discriminate]. cbn [bind] in E1.
        destruct (insertOrAssign keqb hash (g_map g) k v) as [u|]; [|discriminate]. cbn [bind] in E1.
        pose proof (H _ _ Eg) as Hg.
        destruct j as [j|]; [|destruct (size (g_map g) <? g_length g) eqn:El]; injection E1 as <-; cbn [s_regs].
        -- apply (Y b g Eg). now intros ? [= <-].
        -- apply (Y b g Eg). now intros ? [= <-].
        -- apply (Y b g Eg). intros ? [= <-]. cbn [g_length].
           destruct (wrel_rep _ _ _ _ _ _ _ R Eg) as (m & Em & Rm & _ & _ & C).
           pose proof (vrep_le sizeN W ltac:(lia) _ _ _ (rp_n _ _ _ _ _ _ Rm)) as L. rewrite map_length, C in L.
           apply Nat.ltb_ge in El. assert (size (g_map g) = g_length g) as -> by (unfold size in *; lia).
           destruct Hg as (n & ->). exists (S n). unfold longer. cbn [shelf_length]. now rewrite Nat.add_1_r.
      * destruct (svar s0 b) as [g|] eqn:Eg; [|discriminate]. cbn [bind] in E1.
        destruct (findNodeIndex keqb hash (g_map g) k) as [j|]; [|discriminate]. cbn [bind] in E1. injection E1 as <-. exact H.
      * destruct (svar s0 b) as [g|] eqn:Eg; [|discriminate]. cbn [bind] in E1. apply svar_look in Eg.
        destruct (erase keqb hash (g_map g) k) as [u|]; [|discriminate]. cbn [bind] in E1. injection E1 as <-. cbn [s_regs].
        apply (Y b g Eg). intros ? [= <-]. exact (H _ _ Eg).
      * destruct (svar s0 b) as [g|] eqn:Eg; [|discriminate]. cbn [bind] in E1. apply svar_look in Eg. injection E1 as <-. cbn [s_regs].
        apply (Y b g Eg). intros ? [= <-]. exact (H _ _ Eg).
      * destruct (svar s0 b) as [g|] eqn:Eg; [|discriminate]. cbn [bind] in E1. apply svar_look in Eg. injection E1 as <-. cbn [s_regs].
        intros c g'. rewrite look_app. unfold oput. destruct (c =? _); [intros [= <-]; exact (H _ _ Eg)|].
        apply (Y b g Eg). intros ? [= <-]. now exists 0.
      * destruct (svar s0 b) as [g|] eqn:Eg; [|discriminate]. cbn [bind] in E1. apply svar_look in Eg.
        destruct (svar s0 c) as [k|] eqn:Ek; [|discriminate]. cbn [bind] in E1. apply svar_look in Ek.
        destruct (b =? c); [discriminate|]. injection E1 as <-. cbn [s_regs].
        intros d g'. rewrite look_set by (rewrite uset_length; eapply look_lt; eassumption). unfold oput.
        destruct (d =? c); [intros [= <-]; exact (H _ _ Eg)|]. apply (Y b g Eg). intros ? [= <-]. exact (H _ _ Ek).
      * destruct (svar s0 b) as [g|] eqn:Eg; [|discriminate]. cbn [bind] in E1. apply svar_look in Eg. injection E1 as <-. cbn [s_regs].
        apply (Y b g Eg). discriminate.
Qed.

(** When all registries are destroyed nothing is left on either heap. *)
Theorem C68_no_leak : forall os w,
  roomy_all os -> mrun os = Done w -> (forall b, mvar w b = Fault UseAfterFree) ->
  (forall k cs, ~ live (h_buckets (mw_heap w)) k cs) /\ (forall k cs, ~ live (h_nodes (mw_heap w)) k cs).
Proof.
  intros os w F Ew N.
  pose proof (runs_ok keqb hash movedK movedV sizeN sizeI W sizeI_pos sizeN_big sizeN_fits os _ _
                (wrel_start sizeN sizeI W) F) as H.
  rewrite Ew in H. inversion H as [? s R|]; subst. eapply no_leak; [exact R|].
  intros b. destruct (look (s_regs s) b) as [g|] eqn:Eg; [|reflexivity]. exfalso.
  destruct (wrel_rep _ _ _ _ _ _ _ R Eg) as (m & Em & _). specialize (N b). unfold mvar in N.
  apply look_nth in Em. rewrite Em in N. discriminate.
Qed.
End C68.

(** ** Examples

    Names and handlers are numbers; a size_t has 10 bits, a node takes 10 bytes. *)
Definition ex_m := mruns Nat.eqb Z.of_nat (fun k : nat => k) (fun v : nat => v) 10 2 1024 (mstart (K := nat) (V := nat)).
Definition ex_s := sruns Nat.eqb Z.of_nat (sstart (K := nat) (V := nat)).

(** [always_roomy] by running the program. *)
Fixpoint roomyb (s : @sworld nat nat) (os : list (mop nat nat)) : bool :=
  forallb (fun o => match o with Some g => (3 * S (size (g_map g)) / 2) * 10 <? 1024 | None => true end) (s_regs s) &&
  match os with
  | [] => true
  | o :: r => match MapMemSpec.sstep Nat.eqb Z.of_nat s o with Done s' => roomyb s' r | Fault _ => true end
  end.

Lemma roomyb_ok os : forall s, roomyb s os = true -> always_roomy Nat.eqb Z.of_nat 10 1024 s os.
Proof.
  induction os as [|o os IH]; intros s H; cbn [roomyb always_roomy] in *; apply andb_prop in H; destruct H as (H & H').
  - split; [|exact I]. intros b g E. rewrite forallb_forall in H. apply nth_error_In in E. apply H in E. now apply Nat.ltb_lt.
  - split.
    + intros b g E. rewrite forallb_forall in H. apply nth_error_In in E. apply H in E. now apply Nat.ltb_lt.
    + intros s' E. rewrite E in H'. now apply IH.
Qed.

Definition reads (os : list (mop nat nat)) : outcome (list (outcome (nat * nat))) :=
  w <- ex_m os ;; Done (map (mread w) (seq 0 (length (mw_ptrs w)))).

(** The last pointer comes first. Adding 2 moves command 1; from then on there is room for
    two, so the pointer to command 1 obtained after that survives the next assignment, but
    not the addition of a third command. *)
Definition ex_grow : list (mop nat nat) :=
  [MNew; MAdd 0 1 11; MAdd 0 2 12; MGet 0 1; MAdd 0 2 22].
Example C68_ex_grow : roomyb sstart ex_grow = true /\
  reads ex_grow = Done [Done (2, 22); Done (1, 11); Done (2, 22); Fault UseAfterFree] /\
  reads (ex_grow ++ [MAdd 0 3 13]) =
    Done [Done (3, 13); Fault UseAfterFree; Fault UseAfterFree; Fault UseAfterFree; Fault UseAfterFree].
Proof. repeat split; vm_compute; reflexivity. Qed.

(** Removing 1 of three commands: 3 takes its place; then an addition fills the place that
    was left. *)
Definition ex_remove : list (mop nat nat) :=
  [MNew; MAdd 0 1 11; MAdd 0 2 12; MAdd 0 3 13; MGet 0 2; MGet 0 1; MGet 0 7; MRemove 0 1].
Example C68_ex_remove : roomyb sstart ex_remove = true /\
  reads ex_remove =
    Done [Fault NullDeref; Done (3, 13); Done (2, 12); Fault BadLifetime; Fault UseAfterFree; Fault UseAfterFree] /\
  reads (ex_remove ++ [MAdd 0 5 15]) =
    Done [Done (5, 15); Fault NullDeref; Done (3, 13); Done (2, 12); Done (5, 15); Fault UseAfterFree; Fault UseAfterFree].
Proof. repeat split; vm_compute; reflexivity. Qed.

(** Pointers follow a registry that is moved. *)
Definition ex_move : list (mop nat nat) :=
  [MNew; MNew; MAdd 0 1 11; MAdd 1 2 12; MMoveCtor 0; MMoveAssign 1 2; MClear 2].
Example C68_ex_move : roomyb sstart ex_move = true /\
  reads ex_move = Done [Fault BadLifetime; Done (1, 11)] /\
  reads (ex_move ++ [MDestroy 1; MDestroy 2; MDestroy 0]) = Done [Fault UseAfterFree; Fault UseAfterFree] /\
  reads (ex_move ++ [MGet 0 1]) = Fault DivByZero.
Proof. repeat split; vm_compute; reflexivity. Qed.

(** A pointer that is to a place of registry 0, as the theorems require. *)
Example C68_ex_aims : exists s, ex_s ex_remove = Done s /\ aims s 1 0 0 /\ aims s 3 0 2 /\ forall b i, ~ aims s 4 b i.
Proof.
  destruct (ex_s ex_remove) as [s|] eqn:E; [|vm_compute in E; discriminate]. vm_compute in E. injection E as <-.
  eexists. split; [reflexivity|]. split; [|split].
  - do 2 eexists. repeat split; reflexivity.
  - do 2 eexists. repeat split; reflexivity.
  - intros b i (id & g & E & Eg & Sh). cbn in E. injection E as <- <-. destruct b as [|[|b]]; cbn in Eg; try discriminate.
    injection Eg as <-. discriminate.
Qed.

(** ** What does not hold *)

(** A reference that [add] returned is not valid as long as the command is registered: a
    later [add] of another command can end it. *)
Theorem C68_reference_kept_refuted :
  ~ (forall (os : list (mop nat nat)) k v k' v' w, k' <> k ->
       ex_m (os ++ [MAdd 0 k v; MAdd 0 k' v']) = Done w -> mread w 1 = Done (k, v)).
Proof.
  intros H. specialize (H [MNew] 1 11 2 12).
  destruct (ex_m ([MNew] ++ [MAdd 0 1 11; MAdd 0 2 12])) as [w|] eqn:E; vm_compute in E; [|discriminate].
  specialize (H w ltac:(discriminate) eq_refl). injection E as <-. vm_compute in H. discriminate.
Qed.

(** Nor does a pointer to a command that is neither removed nor replaced stay valid when
    another command is removed, even if it was obtained after all additions. *)
Theorem C68_remove_other_refuted :
  ~ (forall (os : list (mop nat nat)) k v k' w w', k' <> k ->
       ex_m (os ++ [MGet 0 k]) = Done w -> mread w 0 = Done (k, v) ->
       ex_m (os ++ [MGet 0 k; MRemove 0 k']) = Done w' -> mread w' 0 = Done (k, v)).
Proof.
  intros H. specialize (H [MNew; MAdd 0 1 11; MAdd 0 2 12] 2 12 1).
  destruct (ex_m ([MNew; MAdd 0 1 11; MAdd 0 2 12] ++ [MGet 0 2])) as [w|] eqn:E; vm_compute in E; [|discriminate].
  destruct (ex_m ([MNew; MAdd 0 1 11; MAdd 0 2 12] ++ [MGet 0 2; MRemove 0 1])) as [w'|] eqn:E'; vm_compute in E'; [|discriminate].
  specialize (H w w' ltac:(discriminate) eq_refl). injection E as <-. injection E' as <-.
  specialize (H eq_refl eq_refl). vm_compute in H. discriminate.
Qed.

(** And a pointer can come to read a command of another name. *)
Theorem C68_name_kept_refuted :
  ~ (forall (os : list (mop nat nat)) k v o w w' k' v',
       ex_m (os ++ [MGet 0 k]) = Done w -> mread w 0 = Done (k, v) ->
       ex_m (os ++ [MGet 0 k; o]) = Done w' -> mread w' (newer o 0) = Done (k', v') -> k' = k).
Proof.
  intros H. specialize (H [MNew; MAdd 0 1 11; MAdd 0 2 12] 1 11 (MRemove 0 1)).
  destruct (ex_m ([MNew; MAdd 0 1 11; MAdd 0 2 12] ++ [MGet 0 1])) as [w|] eqn:E; vm_compute in E; [|discriminate].
  destruct (ex_m ([MNew; MAdd 0 1 11; MAdd 0 2 12] ++ [MGet 0 1; MRemove 0 1])) as [w'|] eqn:E'; vm_compute in E'; [|discriminate].
  specialize (H w w' 2 12 eq_refl). injection E as <-. injection E' as <-.
  specialize (H eq_refl eq_refl eq_refl). discriminate.
Qed.

(** * Assumptions *)
Print Assumptions C68_programs.
Print Assumptions C68_add_reference.
Print Assumptions C68_get_reference.
Print Assumptions C68_read.
Print Assumptions C68_dangling.
Print Assumptions C68_add.
Print Assumptions C68_remove.
Print Assumptions C68_clear.
Print Assumptions C68_destroy.
Print Assumptions C68_elsewhere.
Print Assumptions C68_lengths.
Print Assumptions C68_no_leak.
Print Assumptions C68_reference_kept_refuted.
Print Assumptions C68_remove_other_refuted.
Print Assumptions C68_name_kept_refuted.
