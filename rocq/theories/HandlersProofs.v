(** The memory of Handlers.v holds exactly the handlers of HandlersSpec.v. *)
From Coq Require Import Ascii ZArith Bool PeanoNat Lia Permutation List.
From Verif Require Import Util Base UMap UMapProofs UMapIter UMapRel SerializerProofs Handlers HandlersSpec.
Import ListNotations.

(** ** Heaps *)

Definition wf_hp {A} (h : hp A) : Prop :=
  NoDup (map fst (h_cells h)) /\ forall a, In a (map fst (h_cells h)) -> a < h_next h.

Lemma cell_in {A} (l : list (nat * A)) a x : cell l a = Some x -> In (a, x) l.
Proof.
  induction l as [|[b y] l IH]; simpl; [discriminate|].
  destruct (Nat.eqb_spec b a) as [->|N]; [intros [= ->]; now left|auto].
Qed.

Lemma in_cell {A} (l : list (nat * A)) a x : NoDup (map fst l) -> In (a, x) l -> cell l a = Some x.
Proof.
  induction l as [|[b y] l IH]; simpl; [easy|]. intros N [E|I].
  - injection E as -> ->. now rewrite Nat.eqb_refl.
  - inversion N as [|? ? N1 N2]; subst. destruct (Nat.eqb_spec b a) as [->|NE]; [|auto].
    exfalso. apply N1. now apply (in_map fst) in I.
Qed.

Lemma cell_none {A} (l : list (nat * A)) a : ~ In a (map fst l) -> cell l a = None.
Proof.
  intros N. destruct (cell l a) eqn:E; [|reflexivity]. exfalso. apply N.
  apply cell_in, (in_map fst) in E. exact E.
Qed.

Lemma drop_in {A} (l : list (nat * A)) a p : In p (drop l a) -> In p l.
Proof.
  induction l as [|[b y] l IH]; simpl; [easy|]. destruct (b =? a); simpl; intuition.
Qed.

Lemma drop_fst_in {A} (l : list (nat * A)) a b : In b (map fst (drop l a)) -> In b (map fst l).
Proof.
  rewrite !in_map_iff. intros (p & E & I). exists p. split; [exact E|]. eapply drop_in, I.
Qed.

Lemma drop_nodup {A} (l : list (nat * A)) a : NoDup (map fst l) -> NoDup (map fst (drop l a)).
Proof.
  induction l as [|[b y] l IH]; simpl; [easy|]. intros N. inversion N as [|? ? N1 N2]; subst.
  destruct (b =? a); [exact N2|]. simpl. constructor; [|auto]. intros I. apply N1.
  eapply drop_fst_in, I.
Qed.

Lemma drop_same {A} (l : list (nat * A)) a : NoDup (map fst l) -> cell (drop l a) a = None.
Proof.
  induction l as [|[b y] l IH]; simpl; [easy|]. intros N. inversion N as [|? ? N1 N2]; subst.
  destruct (Nat.eqb_spec b a) as [->|NE]; [now apply cell_none|]. simpl.
  rewrite (proj2 (Nat.eqb_neq b a) NE). auto.
Qed.

Lemma drop_other {A} (l : list (nat * A)) a b : b <> a -> cell (drop l a) b = cell l b.
Proof.
  intros N. induction l as [|[c y] l IH]; simpl; [easy|].
  destruct (Nat.eqb_spec c a) as [->|NE]; simpl.
  - destruct (Nat.eqb_spec a b) as [->|_]; [congruence|reflexivity].
  - now rewrite IH.
Qed.

Lemma wf_drop {A} (h : hp A) a : wf_hp h -> wf_hp (Hp (h_next h) (drop (h_cells h) a)).
Proof.
  intros [N B]. split; simpl; [now apply drop_nodup|]. intros b I. apply B. eapply drop_fst_in, I.
Qed.

Lemma wf_alloc {A} (h : hp A) x : wf_hp h -> wf_hp (fst (alloc h x)).
Proof.
  intros [N B]. split; simpl.
  - constructor; [|exact N]. intros I. apply B in I. lia.
  - intros a [<-|I]; [lia|]. apply B in I. lia.
Qed.

Lemma fresh {A} (h : hp A) : wf_hp h -> cell (h_cells h) (h_next h) = None.
Proof. intros [_ B]. apply cell_none. intros I. apply B in I. lia. Qed.

Lemma cell_alloc {A} (h : hp A) x a :
  cell (h_cells (fst (alloc h x))) a = if h_next h =? a then Some x else cell (h_cells h) a.
Proof. reflexivity. Qed.

Lemma no_cell_nil {A} (l : list (nat * A)) : NoDup (map fst l) -> (forall a, cell l a = None) -> l = [].
Proof.
  destruct l as [|[a x] l]; [easy|]. intros _ H. specialize (H a). simpl in H.
  rewrite Nat.eqb_refl in H. discriminate.
Qed.

Lemma free_ok {A} (h : hp A) a x : cell (h_cells h) a = Some x ->
  free h a = Done (x, Hp (h_next h) (drop (h_cells h) a)).
Proof. intros E. unfold free, deref. now rewrite E. Qed.

(** ** Counting *)

Definition pair_dec (a b : nat * bytes) : {a = b} + {a <> b}.
Proof. decide equality; [apply (list_eq_dec ascii_dec)|apply Nat.eq_dec]. Defined.

Lemma count_perm {A} (dec : forall x y : A, {x = y} + {x <> y}) l l' :
  Permutation l l' -> forall x, count_occ dec l x = count_occ dec l' x.
Proof. intros H. now apply (Permutation_count_occ dec). Qed.

(** Turns permutations of natural numbers or pairs into equations of counts. *)
Ltac counts dec x :=
  repeat match goal with
  | H : Permutation _ _ |- _ => pose proof (count_perm dec _ _ H x); clear H
  end;
  repeat rewrite count_occ_app in *; lia.
Ltac unfold_held := idtac.
Ltac perm_nat := unfold_held; apply (Permutation_count_occ Nat.eq_dec); let y := fresh in intros y; counts Nat.eq_dec y.
Ltac perm_pair := apply (Permutation_count_occ pair_dec); let y := fresh in intros y; counts pair_dec y.

Section Proofs.
Context {F : Type}.
Variable types : F -> list bytes.
Variable hash : bytes -> Z.
Local Notation mem := (mem F).

(** ** What is held *)

Definition held (x : functor) : list nat := match m_storage x with Some a => [a] | None => [] end.
Definition held_items (l : list functor) : list nat := flat_map held l.
Definition held_vec (v : fvec) : list nat := held_items (v_items v).
Definition held_entry (e : key * command) : list nat := held_vec (c_functors (snd e)).
Definition held_map (mp : umap key command) : list nat := flat_map held_entry (iterate mp).
Definition key_of (e : key * command) : nat * bytes := (k_buf (fst e), k_text (fst e)).
Definition keys_map (mp : umap key command) : list (nat * bytes) := map key_of (iterate mp).
Definition named (e : key * command) : Prop :=
  c_name (snd e) = Some (k_buf (fst e), length (k_text (fst e))).

Ltac unfold_held ::= unfold held_vec, held_items in *.

(** Which handler was put into the storage with an address. *)
Definition ghost := nat -> option F.
Definition ext (G G' : ghost) : Prop := forall s f, G s = Some f -> G' s = Some f.

Lemma ext_refl G : ext G G. Proof. intros s f H. exact H. Qed.
Lemma ext_trans G1 G2 G3 : ext G1 G2 -> ext G2 G3 -> ext G1 G3.
Proof. intros A B s f H. apply B, A, H. Qed.

Record mem_ok (m : mem) (G : ghost) (S : list nat) (K : list (nat * bytes)) : Prop := MemOk {
  ok_funcs : wf_hp (funcs m);
  ok_stores : wf_hp (stores m);
  ok_keys : wf_hp (keys m);
  ok_nodup : NoDup S;
  ok_held : forall s, In s S -> exists a f,
    cell (h_cells (stores m)) s = Some (Wrapper (Some a)) /\
    cell (h_cells (funcs m)) a = Some f /\ G s = Some f;
  ok_only : forall s w, cell (h_cells (stores m)) s = Some w -> In s S;
  ok_owned : forall a f, cell (h_cells (funcs m)) a = Some f ->
    exists s, cell (h_cells (stores m)) s = Some (Wrapper (Some a));
  ok_inj : forall s s' a, cell (h_cells (stores m)) s = Some (Wrapper (Some a)) ->
    cell (h_cells (stores m)) s' = Some (Wrapper (Some a)) -> s = s';
  ok_names : Permutation (h_cells (keys m)) K;
  ok_ghost : forall s f, G s = Some f -> s < h_next (stores m)
}.

Lemma mem_ok_perm m G S S' K K' :
  Permutation S S' -> Permutation K K' -> mem_ok m G S K -> mem_ok m G S' K'.
Proof.
  intros P Q [A B C D E H I J N O]. constructor; auto.
  - eapply Permutation_NoDup; eauto.
  - intros s Hs. apply E. eapply Permutation_in; [symmetry; exact P|exact Hs].
  - intros s w Hs. eapply Permutation_in; [exact P|]. eauto.
  - etransitivity; eauto.
Qed.

(** ** AnyFunctor *)

Definition fun_rel (G : ghost) (x : functor) (f : F) : Prop :=
  exists a, m_storage x = Some a /\ G a = Some f /\ m_parameterTypes x = types f.

Lemma fun_rel_ext G G' x f : ext G G' -> fun_rel G x f -> fun_rel G' x f.
Proof. intros E (a & A & B & C). exists a. auto. Qed.

Lemma af_make_ok m G S K f : mem_ok m G S K ->
  exists m' x G', af_make types m f = Done (m', x) /\ ext G G' /\ fun_rel G' x f /\
    mem_ok m' G' (held x ++ S) K.
Proof.
  intros [Wf Ws Wk D H O W I N Gh]. unfold af_make, fw_make. cbn.
  set (s := h_next (stores m)). set (a := h_next (funcs m)).
  assert (Gs : G s = None).
  { destruct (G s) eqn:E; [|reflexivity]. apply Gh in E. unfold s in E. lia. }
  pose proof (fresh _ Ws) as Fs. pose proof (fresh _ Wf) as Ff. fold s in Fs. fold a in Ff.
  eexists _, _, (fun t => if s =? t then Some f else G t). split; [reflexivity|].
  split; [|split].
  - intros t g E. destruct (Nat.eqb_spec s t) as [<-|_]; [congruence|exact E].
  - exists s. cbn. now rewrite Nat.eqb_refl.
  - cbn. constructor; cbn.
    + apply (wf_alloc (funcs m) f Wf).
    + apply (wf_alloc (stores m) (Wrapper (Some a)) Ws).
    + exact Wk.
    + constructor; [|exact D]. intros E. apply H in E. destruct E as (? & ? & E & _). congruence.
    + intros t [<-|T].
      * exists a, f. rewrite !Nat.eqb_refl. auto.
      * destruct (H t T) as (b & g & Eb & Eg & Et). exists b, g.
        destruct (Nat.eqb_spec s t) as [<-|_]; [congruence|].
        fold a. destruct (Nat.eqb_spec a b) as [<-|_]; [congruence|]. auto.
    + fold s. intros t w. destruct (Nat.eqb_spec s t) as [<-|_]; [now left|]. intros E. right. eauto.
    + fold a s. intros b g. destruct (Nat.eqb_spec a b) as [<-|NE].
      * intros _. exists s. now rewrite Nat.eqb_refl.
      * intros E. apply W in E. destruct E as (t & E). exists t.
        destruct (Nat.eqb_spec s t) as [<-|_]; [congruence|exact E].
    + fold a s.
      assert (NA : forall t b, cell (h_cells (stores m)) t = Some (Wrapper (Some b)) -> b <> a).
      { intros t b E ->. destruct (H t (O _ _ E)) as (b & g & Eb & Eg & _). congruence. }
      intros t t' b. destruct (Nat.eqb_spec s t) as [<-|_], (Nat.eqb_spec s t') as [<-|_]; intros E E'.
      * reflexivity.
      * injection E as <-. now apply NA in E'.
      * injection E' as <-. now apply NA in E.
      * eauto.
    + exact N.
    + fold s. intros t g. destruct (Nat.eqb_spec s t) as [<-|_]; [lia|]. intros E. apply Gh in E.
      unfold s. lia.
Qed.

Lemma af_destroy_ok m G S K x : mem_ok m G (held x ++ S) K ->
  exists m', af_destroy m x = Done m' /\ mem_ok m' G S K.
Proof.
  unfold held, af_destroy. destruct (m_storage x) as [s|]; [|eauto].
  intros [Wf Ws Wk D H O W I N Gh].
  destruct (H s (or_introl eq_refl)) as (a & f & Es & Ea & Eg).
  rewrite (free_ok _ _ _ Es). cbn. unfold fw_destroy. cbn. rewrite (free_ok _ _ _ Ea). cbn.
  eexists. split; [reflexivity|].
  inversion D as [|? ? D1 D2]; subst.
  constructor; cbn.
  - now apply wf_drop.
  - now apply wf_drop.
  - exact Wk.
  - exact D2.
  - intros t T. destruct (H t (or_intror T)) as (b & g & Eb & Eg' & Et). exists b, g.
    assert (t <> s) by congruence. rewrite drop_other by assumption. split; [exact Eb|].
    split; [|exact Et]. rewrite drop_other; [exact Eg'|]. intros ->.
    pose proof (I _ _ _ Eb Es). congruence.
  - intros t w E. destruct (Nat.eq_dec t s) as [->|NE].
    + rewrite drop_same in E by apply Ws. discriminate.
    + rewrite drop_other in E by assumption. destruct (O _ _ E) as [->|T]; [congruence|exact T].
  - intros b g E. destruct (Nat.eq_dec b a) as [->|NE].
    + rewrite drop_same in E by apply Wf. discriminate.
    + rewrite drop_other in E by assumption. destruct (W _ _ E) as (t & Et). exists t.
      rewrite drop_other; [exact Et|]. intros ->. congruence.
  - assert (X : forall t b, cell (drop (h_cells (stores m)) s) t = Some (Wrapper (Some b)) ->
              cell (h_cells (stores m)) t = Some (Wrapper (Some b))).
    { intros t b E. destruct (Nat.eq_dec t s) as [->|NE].
      - rewrite drop_same in E by apply Ws. discriminate.
      - now rewrite drop_other in E. }
    intros t t' b E E'. eauto.
  - exact N.
  - exact Gh.
Qed.

Lemma destroy_items_ok l : forall m G S K, mem_ok m G (held_items l ++ S) K ->
  exists m', destroy_items m l = Done m' /\ mem_ok m' G S K.
Proof.
  induction l as [|x l IH]; intros m G S K H; cbn in *; [eauto|].
  destruct (IH m G (held x ++ S) K) as (m1 & -> & H1).
  { eapply mem_ok_perm; [| |exact H]; [perm_nat|reflexivity]. }
  cbn. apply (af_destroy_ok _ _ _ _ _ H1).
Qed.

Lemma fvec_destroy_ok v m G S K : mem_ok m G (held_vec v ++ S) K ->
  exists m', fvec_destroy m v = Done m' /\ mem_ok m' G S K.
Proof. apply destroy_items_ok. Qed.

Lemma af_target_ok m G S K x f : mem_ok m G S K -> (forall s, In s (held x) -> In s S) ->
  fun_rel G x f -> af_target m x = Done f.
Proof.
  intros H I (s & Es & Eg & _). unfold af_target, held in *. rewrite Es in *.
  destruct (ok_held _ _ _ _ H s (I s (or_introl eq_refl))) as (a & g & Ea & Ef & Eg').
  unfold deref at 1. rewrite Ea. cbn. unfold deref. rewrite Ef. congruence.
Qed.

(** ** Vector<AnyFunctor> *)

Definition vec_rel (G : ghost) (v : fvec) (fs : list F) : Prop := Forall2 (fun_rel G) (v_items v) fs.

Lemma vec_rel_ext G G' v fs : ext G G' -> vec_rel G v fs -> vec_rel G' v fs.
Proof.
  intros E H. unfold vec_rel in *. induction H; constructor; auto. eapply fun_rel_ext; eauto.
Qed.

Lemma destroy_moved (m : mem) (l : list functor) :
  destroy_items m (map (fun x => snd (af_move x)) l) = Done m.
Proof. induction l as [|x l IH]; cbn in *; [reflexivity|]. now rewrite IH. Qed.

Lemma fvec_push_ok (m : mem) v x : exists cap,
  fvec_push m v x = Done (m, FVec (v_items v ++ [x]) cap).
Proof.
  unfold fvec_push. destruct (Nat.ltb_spec (v_cap v) (S (length (v_items v)))) as [L|L].
  - unfold fvec_grow. rewrite destroy_moved. cbn [bind].
    assert (E : map (fun x => fst (af_move x)) (v_items v) = v_items v).
    { cbn. apply map_id. }
    rewrite E. cbn [v_cap v_items].
    set (c := if _ <? _ then _ else _).
    assert (C : S (length (v_items v)) <= c).
    { unfold c. destruct (Nat.ltb_spec (length (v_items v) * 3 / 2) (S (length (v_items v)))); lia. }
    clearbody c. rewrite (proj2 (Nat.leb_le _ _) C). cbn. eauto.
  - cbn [bind]. rewrite (proj2 (Nat.leb_le _ _) L). cbn. eauto.
Qed.

Lemma push_all_ok fs : forall m G S K v us, mem_ok m G (held_vec v ++ S) K -> vec_rel G v us ->
  exists m' v' G', push_all types m v fs = Done (m', v') /\ ext G G' /\ vec_rel G' v' (us ++ fs) /\
    mem_ok m' G' (held_vec v' ++ S) K.
Proof.
  induction fs as [|f fs IH]; intros m G S K v us H R; cbn [push_all].
  - exists m, v, G. rewrite app_nil_r. repeat split; auto; apply ext_refl || apply H.
  - destruct (af_make_ok m G _ K f H) as (m1 & x & G1 & -> & E1 & R1 & H1). cbn [bind fst snd].
    destruct (fvec_push_ok m1 v x) as (cap & ->). cbn [bind fst snd].
    destruct (IH m1 G1 S K (FVec (v_items v ++ [x]) cap) (us ++ [f])) as (m2 & v2 & G2 & -> & E2 & R2 & H2).
    + eapply mem_ok_perm; [| |exact H1]; [|reflexivity]. unfold held_vec, held_items. cbn [v_items].
      rewrite flat_map_app. cbn [flat_map]. rewrite app_nil_r. perm_nat.
    + unfold vec_rel. cbn. apply Forall2_app; [exact (vec_rel_ext _ _ _ _ E1 R)|]. auto.
    + exists m2, v2, G2. split; [reflexivity|]. split; [eapply ext_trans; eauto|].
      rewrite <- app_assoc in R2. auto.
Qed.

Lemma overloaded_ok m G S K fs : mem_ok m G S K ->
  exists m' v' G', overloaded types m fs = Done (m', v') /\ ext G G' /\ vec_rel G' v' fs /\
    mem_ok m' G' (held_vec v' ++ S) K.
Proof.
  intros H. destruct (push_all_ok fs m G S K fvec_new []) as (m' & v' & G' & R).
  - exact H.
  - constructor.
  - exists m', v', G'. exact R.
Qed.

Lemma targets_ok m G S K l fs : mem_ok m G S K -> (forall s, In s (held_items l) -> In s S) ->
  Forall2 (fun_rel G) l fs -> targets m l = Done fs /\ map m_parameterTypes l = map types fs.
Proof.
  intros H I R. induction R as [|x f l fs Rx R IH]; cbn; [auto|].
  rewrite (af_target_ok m G S K x f H); [|intros s Is; apply I, in_or_app; now left|exact Rx].
  destruct IH as [T P]; [intros s Is; apply I, in_or_app; now right|]. rewrite T, P. cbn.
  destruct Rx as (a & _ & _ & ->). auto.
Qed.

(** ** Keys *)

Lemma key_make_ok m G S K t : mem_ok m G S K ->
  mem_ok (set_keys m (fst (alloc (keys m) t))) G S ((h_next (keys m), t) :: K).
Proof.
  intros [Wf Ws Wk D H O W I N Gh]. constructor; cbn [funcs stores keys set_keys]; auto.
  - now apply wf_alloc.
  - cbn. now constructor.
Qed.

Lemma drop_perm {A} (l : list (nat * A)) a x : cell l a = Some x -> Permutation l ((a, x) :: drop l a).
Proof.
  induction l as [|[b y] l IH]; cbn; [discriminate|].
  destruct (Nat.eqb_spec b a) as [->|N]; [intros [= ->]; reflexivity|]. intros E.
  rewrite (IH E) at 1. apply perm_swap.
Qed.

Lemma key_destroy_ok m G S K k : mem_ok m G S ((k_buf k, k_text k) :: K) ->
  exists m', key_destroy m k = Done m' /\ mem_ok m' G S K.
Proof.
  intros [Wf Ws Wk D H O W I N Gh]. unfold key_destroy.
  assert (E : cell (h_cells (keys m)) (k_buf k) = Some (k_text k)).
  { apply in_cell; [apply Wk|]. eapply Permutation_in; [symmetry; exact N|now left]. }
  rewrite (free_ok _ _ _ E). cbn. eexists. split; [reflexivity|].
  constructor; cbn; auto.
  - now apply wf_drop.
  - apply (Permutation_cons_inv (a := (k_buf k, k_text k))). rewrite <- N. symmetry.
    now apply drop_perm.
Qed.

(** ** The registry *)

Definition key_rel (k : key) (t : bytes) : Prop := k_text k = t.
Definition cmd_rel (G : ghost) (c : command) (fs : list F) : Prop := vec_rel G (c_functors c) fs.
Definition map_rel (G : ghost) := umap_rel key_rel (cmd_rel G).

Lemma key_rel_eqb a a' b b' : key_rel a a' -> key_rel b b' -> key_eqb a b = bytes_eqb a' b'.
Proof. now intros <- <-. Qed.
Lemma key_rel_hash a a' : key_rel a a' -> khash hash a = hash a'.
Proof. now intros <-. Qed.

Lemma map_rel_ext G G' mp x : ext G G' -> map_rel G mp x -> map_rel G' mp x.
Proof.
  intros E [B N]. split; [exact B|]. clear B. unfold nodes_rel in *. induction N as [|n n' l l' H _ IH]; constructor; auto.
  destruct H as (A & C & D). split; [exact A|]. split; [|exact D]. eapply vec_rel_ext; eauto.
Qed.

Lemma node_destroy_ok m G S K n :
  mem_ok m G (held_entry (entry n) ++ S) (key_of (entry n) :: K) ->
  exists m', node_destroy m n = Done m' /\ mem_ok m' G S K.
Proof.
  intros H. unfold node_destroy. destruct (fvec_destroy_ok _ _ _ _ _ H) as (m1 & E & H1).
  cbn [entry snd] in E. rewrite E. cbn [bind]. apply (key_destroy_ok _ _ _ _ _ H1).
Qed.

Lemma destroy_nodes_ok l : forall m G S K,
  mem_ok m G (flat_map held_entry (map entry l) ++ S) (map key_of (map entry l) ++ K) ->
  exists m', destroy_nodes m l = Done m' /\ mem_ok m' G S K.
Proof.
  induction l as [|n l IH]; intros m G S K H; cbn in *; [eauto|].
  destruct (IH m G (held_entry (entry n) ++ S) (key_of (entry n) :: K)) as (m1 & -> & H1).
  { eapply mem_ok_perm; [| |exact H]; [perm_nat|]. apply Permutation_middle. }
  cbn. apply (node_destroy_ok _ _ _ _ _ H1).
Qed.

Lemma set_nth_perm {A B} (g : A -> list B) (l : list A) i x y : nth_error l i = Some x ->
  Permutation (g x ++ flat_map g (set_nth l i y)) (g y ++ flat_map g l).
Proof.
  revert i. induction l as [|z l IH]; intros [|i] E; cbn in *; try discriminate.
  - injection E as ->. rewrite !app_assoc. apply Permutation_app_tail, Permutation_app_comm.
  - rewrite !app_assoc, (Permutation_app_comm (g x)), (Permutation_app_comm (g y)), <- !app_assoc.
    apply Permutation_app_head, IH, E.
Qed.

Lemma Forall_set_nth {A} (P : A -> Prop) l i x : Forall P l -> P x -> Forall P (set_nth l i x).
Proof.
  intros H. revert i. induction H; intros [|i] Hx; cbn; constructor; auto.
Qed.

Lemma insert_new_entries {K V} (keqb : K -> K -> bool) (h : K -> Z) (m m' : umap K V) k v :
  findNodeIndex keqb h m k = Done None -> insertOrAssign keqb h m k v = Done m' ->
  iterate m' = iterate m ++ [(k, v)].
Proof.
  intros E. unfold insertOrAssign. rewrite E. cbn [bind].
  destruct (if load_exceeds (S (length (nodes m))) (length (buckets m))
            then rehash h m (length (nodes m) * 2) else Done m) as [m1|] eqn:R;
    cbn [bind]; [|discriminate].
  assert (I : iterate m1 = iterate m).
  { destruct (load_exceeds _ _); [now apply rehash_entries in R|congruence]. }
  intros H. apply insertNode_entries in H. rewrite H, <- I.
  unfold iterate. cbn. now rewrite map_app.
Qed.

Definition add_rel G S K (r : mem * umap key command) (x : umap bytes (list F)) : Prop :=
  map_rel G (snd r) x /\ Forall named (iterate (snd r)) /\
  mem_ok (fst r) G (held_map (snd r) ++ S) (keys_map (snd r) ++ K).

Lemma iterate_at {K V} (m : umap K V) i n :
  nth_error (nodes m) i = Some n -> nth_error (iterate m) i = Some (entry n).
Proof. intros E. unfold iterate. now rewrite nth_error_map, E. Qed.

Lemma b_add_rel m G S K mp x name v fs :
  mem_ok m G (held_map mp ++ held_vec v ++ S) (keys_map mp ++ K) ->
  map_rel G mp x -> Forall named (iterate mp) -> vec_rel G v fs ->
  out_rel (add_rel G S K) (b_add hash m mp name v) (insertOrAssign bytes_eqb hash x name fs).
Proof.
  intros H R Nm Rv. unfold b_add. cbn [alloc].
  pose proof (key_make_ok m G _ _ name H) as H1. cbn [alloc fst] in H1.
  set (a := h_next (keys m)) in *. set (m1 := set_keys m _) in *. clearbody m1 a. clear H.
  pose proof (findNodeIndex_rel key_eqb bytes_eqb (khash hash) hash key_rel (cmd_rel G)
    key_rel_eqb key_rel_hash mp x (Key a name) name R eq_refl) as RI.
  pose proof (insertOrAssign_rel key_eqb bytes_eqb (khash hash) hash key_rel (cmd_rel G)
    key_rel_eqb key_rel_hash mp x (Key a name) name (Command None v) fs R eq_refl Rv) as RA.
  destruct (findNodeIndex key_eqb (khash hash) mp (Key a name)) as [i|f] eqn:EI.
  2: { unfold insertOrAssign. inversion RI as [|? E1 E2]; subst. constructor. }
  cbn [bind].
  destruct (insertOrAssign key_eqb (khash hash) mp (Key a name) (Command None v)) as [mp1|f] eqn:EA.
  2: { inversion RA; subst. cbn. constructor. }
  inversion RA as [? x1 RM E1 E2|]; subst. clear RA RI. cbn [bind].
  assert (FIN : forall m2 it n, nth_error (nodes mp1) it = Some n ->
     mem_ok m2 G (held_map mp1 ++ S) (keys_map mp1 ++ K) ->
     (forall j e, j <> it -> nth_error (iterate mp1) j = Some e -> named e) ->
     out_rel (add_rel G S K)
       (n <- at_ (nodes mp1) it ;;
        Done (m2, UMap (buckets mp1) (set_nth (nodes mp1) it
           (set_val n (Command (Some (k_buf (n_key n), length (k_text (n_key n)))) (c_functors (n_val n)))))))
       (Done x1)).
  { intros m2 it n En H2 Ho. rewrite (at_some _ _ _ En). cbn [bind]. constructor.
    set (c := Command _ _). unfold add_rel. cbn [fst snd].
    set (mp2 := UMap _ _).
    assert (It : iterate mp2 = set_nth (iterate mp1) it (n_key n, c)).
    { unfold iterate, mp2. cbn [nodes]. rewrite UMapIter.map_set_nth. reflexivity. }
    pose proof (iterate_at _ _ _ En) as En'.
    split; [|split].
    - destruct RM as [B N]. split; [exact B|]. cbn [nodes mp2]. clear - N En.
      assert (X : forall l l' i, nodes_rel key_rel (cmd_rel G) l l' -> nth_error l i = Some n ->
                nodes_rel key_rel (cmd_rel G) (set_nth l i (set_val n c)) l').
      { induction l as [|z l IH]; intros l' [|i] R E; cbn in *; try discriminate;
          inversion R as [|? z' ? l0 Rz Rl]; subst; constructor; auto.
        - injection E as ->. exact Rz.
        - now apply IH. }
      apply X; assumption.
    - rewrite It. apply Forall_forall. intros e I. apply In_nth_error in I. destruct I as (j & I).
      destruct (Nat.eq_dec j it) as [->|NE].
      + rewrite (UMapProofs.set_nth_same _ _ _ _ En') in I. injection I as <-. reflexivity.
      + rewrite set_nth_other in I by congruence. eauto.
    - eapply mem_ok_perm; [| |exact H2].
      + unfold held_map. rewrite It.
        pose proof (set_nth_perm held_entry (iterate mp1) it (entry n) (n_key n, c) En') as P.
        change (held_entry (n_key n, c)) with (held_entry (entry n)) in P.
        apply Permutation_app_inv_l in P. rewrite P. reflexivity.
      + unfold keys_map. rewrite It.
        replace (map key_of (set_nth (iterate mp1) it (n_key n, c))) with (map key_of (iterate mp1)); [reflexivity|].
        symmetry. apply (UMapProofs.map_set_nth _ _ _ _ _ En'). reflexivity. }
  destruct i as [i|].
  - destruct (findNodeIndex_sound _ _ _ _ _ EI) as (n & En & _).
    rewrite (at_some _ _ _ En). cbn [bind fvec_assign snd].
    unfold insertOrAssign in EA. rewrite EI in EA. cbn [bind] in EA. rewrite (at_some _ _ _ En) in EA.
    cbn [bind] in EA. injection EA as <-.
    pose proof (iterate_at _ _ _ En) as En'.
    assert (It : iterate (UMap (buckets mp) (set_nth (nodes mp) i (set_val n (Command None v))))
                 = set_nth (iterate mp) i (n_key n, Command None v)).
    { unfold iterate. cbn [nodes]. rewrite UMapIter.map_set_nth. reflexivity. }
    set (mp1 := UMap (buckets mp) _) in *.
    pose proof (set_nth_perm held_entry (iterate mp) i (entry n) (n_key n, Command None v) En') as P.
    fold (held_map mp) in P. rewrite <- It in P. fold (held_map mp1) in P.
    change (held_entry (n_key n, Command None v)) with (held_vec v) in P.
    change (held_entry (entry n)) with (held_vec (c_functors (n_val n))) in P.
    destruct (fvec_destroy_ok (c_functors (n_val n)) m1 G (held_map mp1 ++ S) ((a, name) :: keys_map mp ++ K))
      as (m2 & -> & H2).
    { eapply mem_ok_perm; [| |exact H1]; [|reflexivity]. perm_nat. }
    cbn [bind]. destruct (key_destroy_ok m2 G _ _ (Key a name) H2) as (m3 & -> & H3). cbn [bind].
    apply (FIN m3 i (set_val n (Command None v))).
    + cbn [nodes mp1]. eapply UMapProofs.set_nth_same, En.
    + unfold keys_map. rewrite It.
      rewrite (UMapProofs.map_set_nth key_of _ _ (n_key n, Command None v) _ En' eq_refl).
      exact H3.
    + intros j e NE E. rewrite It, set_nth_other in E by congruence.
      eapply Forall_forall; [exact Nm|]. eapply nth_error_In, E.
  - cbn [bind].
    pose proof (insert_new_entries _ _ _ _ _ _ EI EA) as It.
    assert (L : length (nodes mp1) = Datatypes.S (length (nodes mp))).
    { change (map entry (nodes mp1) = map entry (nodes mp) ++ [(Key a name, Command None v)]) in It.
      rewrite <- (map_length entry), It, app_length, map_length. cbn. lia. }
    rewrite L. cbn [pred].
    destruct (nth_error (nodes mp1) (length (nodes mp))) as [n|] eqn:En.
    2: { apply nth_error_None in En. lia. }
    apply (FIN m1 (length (nodes mp)) n En).
    + eapply mem_ok_perm; [| |exact H1].
      * unfold held_map. rewrite It, flat_map_app. cbn [flat_map]. 
        change (held_entry (Key a name, Command None v)) with (held_vec v).
        rewrite app_nil_r. fold (held_map mp). perm_nat.
      * unfold keys_map. rewrite It, map_app, <- app_assoc. cbn [map app key_of fst k_buf k_text].
        apply Permutation_middle.
    + intros j e NE E. rewrite It in E.
      assert (J : j < length (iterate mp)).
      { assert (X : j < length (iterate mp ++ [(Key a name, Command None v)])) by (apply nth_error_Some; congruence).
        rewrite app_length in X. cbn in X. change (iterate mp) with (map entry (nodes mp)) in *.
        rewrite map_length in *. lia. }
      rewrite nth_error_app1 in E by exact J.
      eapply Forall_forall; [exact Nm|]. eapply nth_error_In, E.
Qed.

Lemma b_add1_rel m G S K mp x name y f :
  mem_ok m G (held_map mp ++ held y ++ S) (keys_map mp ++ K) ->
  map_rel G mp x -> Forall named (iterate mp) -> fun_rel G y f ->
  out_rel (add_rel G S K) (b_add1 hash m mp name y) (insertOrAssign bytes_eqb hash x name [f]).
Proof.
  intros H R Nm Ry. unfold b_add1. cbn [af_move].
  destruct (fvec_push_ok m fvec_new y) as (cap & ->). cbn [bind fst snd fvec_move].
  assert (B : out_rel (add_rel G S K) (b_add hash m mp name (FVec (v_items fvec_new ++ [y]) cap))
                (insertOrAssign bytes_eqb hash x name [f])).
  { apply b_add_rel; auto.
    - unfold held_vec, held_items. cbn. rewrite app_nil_r. exact H.
    - unfold vec_rel. cbn. auto. }
  destruct B as [r x1 B|e]; cbn [bind]; [|constructor].
  destruct r as [m1 mp1]. cbn. constructor. exact B.
Qed.

Lemma relocate_perm {K V} (m m' : umap K V) i :
  relocate m i = Done m' -> Permutation (iterate m') (iterate m).
Proof.
  unfold relocate. destruct (length (nodes m)) as [|last]; [discriminate|].
  destruct (i =? last); [now intros [= <-]|].
  destruct (at_ (nodes m) last) as [l|]; cbn [bind]; [|discriminate].
  destruct (match n_prev l with Some p => _ | None => _ end) as [m1|] eqn:M; cbn [bind]; [|discriminate].
  assert (I : map entry (nodes m1) = map entry (nodes m)).
  { destruct (n_prev l) as [p|].
    - destruct (put_next (nodes m) p (Some i)) as [ns|] eqn:Q; cbn in M; [|discriminate].
      injection M as <-. now apply put_next_entries in Q.
    - destruct (n_bucket l) as [lb|]; [|discriminate].
      destruct (at_ (buckets m) lb); cbn in M; [|discriminate]. injection M as <-. reflexivity. }
  unfold swap_nodes.
  destruct (at_ (nodes m1) i) as [a|] eqn:A; cbn [bind]; [|discriminate].
  destruct (at_ (nodes m1) last) as [b|] eqn:B; cbn [bind]; [|discriminate].
  intros [= <-]. change (iterate m) with (map entry (nodes m)). rewrite <- I.
  unfold iterate. cbn [nodes]. change (fun n : node K V => (n_key n, n_val n)) with (@entry K V).
  apply Permutation_map. apply at_inv in A, B.
  assert (FM : forall l : list (node K V), flat_map (fun x => [x]) l = l).
  { intros l0. induction l0; cbn; congruence. }
  pose proof (set_nth_perm (fun x => [x]) (nodes m1) i a b A) as P1.
  assert (A' : nth_error (set_nth (nodes m1) i b) last = Some b).
  { destruct (Nat.eq_dec i last) as [<-|NE].
    - eapply UMapProofs.set_nth_same, A.
    - now rewrite set_nth_other. }
  pose proof (set_nth_perm (fun x => [x]) (set_nth (nodes m1) i b) last b a A') as P2.
  rewrite P1 in P2. apply Permutation_app_inv_l in P2. now rewrite !FM in P2.
Qed.

Lemma pop_last {K V} (m m' : umap K V) : pop_node m = Done m' ->
  exists n, nth_error (nodes m) (pred (length (nodes m))) = Some n /\
    iterate m = iterate m' ++ [entry n].
Proof.
  unfold pop_node. destruct (length (nodes m)) as [|last] eqn:L; [discriminate|].
  destruct (at_ (nodes m) last) as [n|] eqn:A; cbn [bind]; [|discriminate].
  destruct (assert_ (match n_prev n with None => true | _ => false end)); cbn [bind]; [|discriminate].
  destruct (assert_ (match n_next n with None => true | _ => false end)); cbn [bind]; [|discriminate].
  intros [= <-]. apply at_inv in A. exists n. split; [exact A|].
  unfold iterate. cbn [nodes]. change [entry n] with (map (@entry K V) [n]).
  rewrite <- map_app. f_equal. clear - A L. revert last A L. induction (nodes m) as [|z l IH]; intros [|last] A L; cbn in *; try discriminate.
  - injection A as ->. destruct l; [reflexivity|discriminate].
  - f_equal. apply IH; [exact A|lia].
Qed.

Lemma b_remove_rel m G S K mp x name :
  mem_ok m G (held_map mp ++ S) (keys_map mp ++ K) ->
  map_rel G mp x -> Forall named (iterate mp) ->
  out_rel (add_rel G S K) (b_remove hash m mp name) (erase bytes_eqb hash x name).
Proof.
  intros H R Nm. unfold b_remove, erase.
  eapply out_bind.
  { apply (findNodeIndex_rel key_eqb bytes_eqb (khash hash) hash key_rel (cmd_rel G)
      key_rel_eqb key_rel_hash mp x (as_key name) name R eq_refl). }
  intros [i|] ? <-; [|constructor; now split].
  pose proof (unlink_rel key_rel (cmd_rel G) mp x i R) as R1.
  destruct (unlink mp i) as [mp1|f] eqn:U; inversion R1 as [? x1 R1' E1 E2|]; subst; [|constructor].
  cbn [bind].
  pose proof (relocate_rel key_rel (cmd_rel G) mp1 x1 i R1') as R2.
  destruct (relocate mp1 i) as [mp2|f] eqn:L; inversion R2 as [? x2 R2' E3 E4|]; subst; [|constructor].
  cbn [bind].
  pose proof (pop_node_rel key_rel (cmd_rel G) mp2 x2 R2') as R3.
  destruct (pop_node mp2) as [mp3|f] eqn:P; inversion R3 as [? x3 R3' E5 E6|]; subst; [|constructor].
  cbn [bind].
  apply unlink_entries in U. apply relocate_perm in L. rewrite U in L.
  destruct (pop_last _ _ P) as (n & En & It). rewrite (at_some _ _ _ En). cbn [bind].
  rewrite It in L.
  destruct (node_destroy_ok m G (held_map mp3 ++ S) (keys_map mp3 ++ K) n) as (m' & -> & H').
  { eapply mem_ok_perm; [| |exact H].
    - unfold held_map. rewrite <- L, flat_map_app. cbn [flat_map]. rewrite app_nil_r.
      rewrite app_assoc. apply Permutation_app_tail, Permutation_app_comm.
    - unfold keys_map. rewrite <- L, map_app. cbn [map]. rewrite <- app_assoc. symmetry.
      apply (Permutation_middle _ _ (key_of (entry n))). }
  cbn [bind]. constructor. split; [exact R3'|]. split; [|exact H'].
  cbn [snd]. rewrite <- L in Nm. now apply Forall_app in Nm.
Qed.

Lemma b_destroy_ok m G S K mp : mem_ok m G (held_map mp ++ S) (keys_map mp ++ K) ->
  exists m', b_destroy m mp = Done m' /\ mem_ok m' G S K.
Proof. apply destroy_nodes_ok. Qed.

(** ** Programs *)

Definition opt_rel {A B} (R : A -> B -> Prop) (x : option A) (y : option B) : Prop :=
  match x, y with Some a, Some b => R a b | None, None => True | _, _ => False end.
Definition opt_all {A} (P : A -> Prop) (x : option A) : Prop :=
  match x with Some a => P a | None => True end.

Definition held_vecs (l : list (option fvec)) : list nat := flat_map (opt_held held_vec) l.
Definition held_maps (l : list (option (umap key command))) : list nat := flat_map (opt_held held_map) l.
Definition keys_maps (l : list (option (umap key command))) : list (nat * bytes) :=
  flat_map (opt_held keys_map) l.
Definition all_named (mp : umap key command) : Prop := Forall named (iterate mp).

Inductive world_rel (w : world F) (s : values F) : Prop :=
| WorldRel (G : ghost)
    (wr_mem : mem_ok (w_mem w) G (held_vecs (w_vecs w) ++ held_maps (w_maps w)) (keys_maps (w_maps w)))
    (wr_vecs : Forall2 (opt_rel (vec_rel G)) (w_vecs w) (s_vecs s))
    (wr_maps : Forall2 (opt_rel (map_rel G)) (w_maps w) (s_maps s))
    (wr_named : Forall (opt_all all_named) (w_maps w)).

Lemma var_rel {A B} (R : A -> B -> Prop) l l' i : Forall2 (opt_rel R) l l' ->
  out_rel (fun a b => R a b /\ nth_error l i = Some (Some a)) (var l i) (var l' i).
Proof.
  intros H. revert i. unfold var.
  induction H as [|[x|] [y|] l l' Hxy _ IH]; intros [|i]; cbn; try constructor; try easy; auto.
Qed.

Lemma Forall2_set_nth {A B} (R : A -> B -> Prop) l l' i x y :
  Forall2 R l l' -> R x y -> Forall2 R (set_nth l i x) (set_nth l' i y).
Proof. intros H. revert i. induction H; intros [|i] Hx; cbn; constructor; auto. Qed.

Lemma vecs_ext G G' l l' : ext G G' -> Forall2 (opt_rel (vec_rel G)) l l' -> Forall2 (opt_rel (vec_rel G')) l l'.
Proof.
  intros E H. induction H as [|[x|] [y|] l l' Hxy _ IH]; constructor; cbn in *; auto.
  eapply vec_rel_ext; eauto.
Qed.

Lemma maps_ext G G' l l' : ext G G' -> Forall2 (opt_rel (map_rel G)) l l' -> Forall2 (opt_rel (map_rel G')) l l'.
Proof.
  intros E H. induction H as [|[x|] [y|] l l' Hxy _ IH]; constructor; cbn in *; auto.
  eapply map_rel_ext; eauto.
Qed.

Lemma all_nth {A} (P : A -> Prop) l i x : Forall (opt_all P) l -> nth_error l i = Some (Some x) -> P x.
Proof. intros H E. apply nth_error_In in E. rewrite Forall_forall in H. exact (H _ E). Qed.

Lemma held_vecs_set l i v v' : nth_error l i = Some (Some v) ->
  Permutation (held_vec v ++ held_vecs (set_nth l i v')) (opt_held held_vec v' ++ held_vecs l).
Proof. intros E. apply (set_nth_perm (opt_held held_vec) l i (Some v) v' E). Qed.

Lemma held_maps_set l i v v' : nth_error l i = Some (Some v) ->
  Permutation (held_map v ++ held_maps (set_nth l i v')) (opt_held held_map v' ++ held_maps l).
Proof. intros E. apply (set_nth_perm (opt_held held_map) l i (Some v) v' E). Qed.

Lemma keys_maps_set l i v v' : nth_error l i = Some (Some v) ->
  Permutation (keys_map v ++ keys_maps (set_nth l i v')) (opt_held keys_map v' ++ keys_maps l).
Proof. intros E. apply (set_nth_perm (opt_held keys_map) l i (Some v) v' E). Qed.

Lemma held_vecs_app l v : held_vecs (l ++ [Some v]) = held_vecs l ++ held_vec v.
Proof. unfold held_vecs. rewrite flat_map_app. cbn. now rewrite app_nil_r. Qed.
Lemma held_maps_app l v : held_maps (l ++ [Some v]) = held_maps l ++ held_map v.
Proof. unfold held_maps. rewrite flat_map_app. cbn. now rewrite app_nil_r. Qed.
Lemma keys_maps_app l v : keys_maps (l ++ [Some v]) = keys_maps l ++ keys_map v.
Proof. unfold keys_maps. rewrite flat_map_app. cbn. now rewrite app_nil_r. Qed.

(** Replacing one map, and perhaps the vectors. *)
Lemma put_map m' G G' vecs vecs' maps i mp (svecs : list (option (list F))) smaps r x :
  nth_error maps i = Some (Some mp) -> ext G G' ->
  Forall2 (opt_rel (map_rel G)) maps smaps -> Forall (opt_all all_named) maps ->
  Forall2 (opt_rel (vec_rel G')) vecs' svecs ->
  forall S K,
  Permutation (held_map mp ++ S) (held_maps maps ++ vecs) -> Permutation (keys_map mp ++ K) (keys_maps maps) ->
  Permutation vecs (held_vecs vecs') ->
  r = (m', snd r) ->
  add_rel G' S K r x ->
  world_rel (World m' vecs' (set_nth maps i (Some (snd r)))) (Values svecs (set_nth smaps i (Some x))).
Proof.
  intros E Ex Rm Nm Rv S K PS PK PV Er (R & N & M). rewrite Er in M. cbn [fst snd] in M.
  apply (WorldRel _ _ G'); cbn [w_mem w_vecs w_maps s_vecs s_maps].
  - eapply mem_ok_perm; [| |exact M].
    + pose proof (held_maps_set maps i mp (Some (snd r)) E) as P. cbn [opt_held] in P.
      unfold held_vecs in *. set (hm := flat_map (opt_held held_vec) vecs') in *. clearbody hm. clear - P PS PV. perm_nat.
    + pose proof (keys_maps_set maps i mp (Some (snd r)) E) as P. cbn [opt_held] in P. clear - P PK. perm_pair.
  - exact Rv.
  - apply Forall2_set_nth; [eapply maps_ext; eauto|exact R].
  - apply Forall_set_nth; assumption.
Qed.

Lemma step_rel w s o : world_rel w s -> out_rel world_rel (step_h types hash w o) (step_s hash s o).
Proof.
  intros [G M Rv Rm Nm]. destruct w as [m vecs maps], s as [svecs smaps].
  cbn [w_mem w_vecs w_maps s_vecs s_maps] in *.
  destruct o as [fs|v|v| |b|b c|b|b name v|b name f|b name|b]; cbn [step_h step_s w_mem w_vecs w_maps s_vecs s_maps].
  - destruct (overloaded_ok m G _ _ fs M) as (m' & v' & G' & -> & E & R & M'). cbn [bind fst snd].
    constructor. apply (WorldRel _ _ G'); cbn [w_mem w_vecs w_maps s_vecs s_maps].
    + eapply mem_ok_perm; [| |exact M']; [|reflexivity]. rewrite held_vecs_app. perm_nat.
    + apply Forall2_app; [eapply vecs_ext; eauto|]. constructor; [exact R|constructor].
    + eapply maps_ext; eauto.
    + exact Nm.
  - eapply out_bind; [apply var_rel, Rv|]. intros x y [R E]. constructor.
    apply (WorldRel _ _ G); cbn [w_mem w_vecs w_maps s_vecs s_maps fvec_move fst snd].
    + eapply mem_ok_perm; [| |exact M]; [|reflexivity]. rewrite held_vecs_app.
      pose proof (held_vecs_set vecs v x (Some fvec_new) E) as P. cbn in P. perm_nat.
    + apply Forall2_app; [|constructor; [exact R|constructor]].
      apply Forall2_set_nth; [exact Rv|]. constructor.
    + exact Rm.
    + exact Nm.
  - eapply out_bind; [apply var_rel, Rv|]. intros x y [R E].
    pose proof (held_vecs_set vecs v x None E) as P. cbn [opt_held app] in P.
    destruct (fvec_destroy_ok x m G (held_vecs (set_nth vecs v None) ++ held_maps maps) (keys_maps maps))
      as (m' & -> & M').
    { eapply mem_ok_perm; [| |exact M]; [|reflexivity]. perm_nat. }
    cbn [bind]. constructor.
    apply (WorldRel _ _ G); cbn [w_mem w_vecs w_maps s_vecs s_maps]; auto.
    apply Forall2_set_nth; [exact Rv|exact I].
  - constructor. apply (WorldRel _ _ G); cbn [w_mem w_vecs w_maps s_vecs s_maps]; auto.
    + rewrite held_maps_app, keys_maps_app. cbn. now rewrite !app_nil_r.
    + apply Forall2_app; [exact Rm|]. constructor; [|constructor]. apply empty_rel.
    + apply Forall_app. split; [exact Nm|]. constructor; [|constructor]. constructor.
  - eapply out_bind; [apply var_rel, Rm|]. intros x y [R E]. constructor.
    pose proof (held_maps_set maps b x (Some (UMap [] [])) E) as P.
    pose proof (keys_maps_set maps b x (Some (UMap [] [])) E) as Q. cbn in P, Q.
    apply (WorldRel _ _ G); cbn [w_mem w_vecs w_maps s_vecs s_maps]; auto.
    + eapply mem_ok_perm; [| |exact M].
      * rewrite held_maps_app. clear Q. perm_nat.
      * rewrite keys_maps_app. clear P. perm_pair.
    + apply Forall2_app; [|constructor; [exact R|constructor]].
      apply Forall2_set_nth; [exact Rm|]. split; constructor.
    + apply Forall_app. split.
      * apply Forall_set_nth; [exact Nm|]. constructor.
      * constructor; [|constructor]. exact (all_nth _ _ _ _ Nm E).
  - eapply out_bind; [apply var_rel, Rm|]. intros x y [R E].
    eapply out_bind; [apply var_rel, Rm|]. intros x' y' [R' E']. constructor.
    assert (Eb : nth_error (set_nth maps c (Some x)) b = Some (Some x)).
    { destruct (Nat.eq_dec c b) as [->|NE]; [eapply UMapProofs.set_nth_same, E'|].
      now rewrite set_nth_other. }
    pose proof (held_maps_set maps c x' (Some x) E') as P1.
    pose proof (held_maps_set _ b x (Some x') Eb) as P2.
    pose proof (keys_maps_set maps c x' (Some x) E') as Q1.
    pose proof (keys_maps_set _ b x (Some x') Eb) as Q2. cbn [opt_held] in *.
    apply (WorldRel _ _ G); cbn [w_mem w_vecs w_maps s_vecs s_maps]; auto.
    + eapply mem_ok_perm; [| |exact M].
      * clear Q1 Q2. perm_nat.
      * clear P1 P2. perm_pair.
    + apply Forall2_set_nth; [apply Forall2_set_nth|]; auto.
    + apply Forall_set_nth; [apply Forall_set_nth|].
      * exact Nm.
      * exact (all_nth _ _ _ _ Nm E).
      * exact (all_nth _ _ _ _ Nm E').
  - eapply out_bind; [apply var_rel, Rm|]. intros x y [R E].
    pose proof (held_maps_set maps b x None E) as P.
    pose proof (keys_maps_set maps b x None E) as Q. cbn [opt_held app] in P, Q.
    destruct (b_destroy_ok m G (held_vecs vecs ++ held_maps (set_nth maps b None))
                (keys_maps (set_nth maps b None)) x) as (m' & -> & M').
    { eapply mem_ok_perm; [| |exact M]; [clear Q; perm_nat|clear P; perm_pair]. }
    cbn [bind]. constructor. apply (WorldRel _ _ G); cbn [w_mem w_vecs w_maps s_vecs s_maps]; auto.
    + apply Forall2_set_nth; [exact Rm|exact I].
    + apply Forall_set_nth; [exact Nm|exact I].
  - eapply out_bind; [apply var_rel, Rm|]. intros x y [R E].
    eapply out_bind; [apply var_rel, Rv|]. intros x' y' [R' E'].
    set (vecs' := set_nth vecs v (Some fvec_new)).
    assert (PV : Permutation (held_vec x' ++ held_vecs vecs') (held_vecs vecs)) by exact (held_vecs_set vecs v x' (Some fvec_new) E').
    pose proof (held_maps_set maps b x None E) as P.
    pose proof (keys_maps_set maps b x None E) as Q. cbn [opt_held app] in P, Q.
    assert (B : out_rel (add_rel G (held_vecs vecs' ++ held_maps (set_nth maps b None))
                           (keys_maps (set_nth maps b None)))
              (b_add hash m x name x') (insertOrAssign bytes_eqb hash y name y')).
    { apply b_add_rel; auto.
      - eapply mem_ok_perm; [| |exact M]; [|clear P PV; perm_pair].
        clear Q. perm_nat.
      - exact (all_nth _ _ _ _ Nm E). }
    cbn [fvec_move fst snd].
    destruct B as [r x1 B|e]; cbn [bind]; [|constructor]. destruct r as [m1 mp1]. cbn [fst snd] in *.
    constructor.
    apply (put_map m1 G G (held_vecs vecs') vecs' maps b x _ _ (m1, mp1) x1 E (ext_refl G) Rm Nm) with (S := held_vecs vecs' ++ held_maps (set_nth maps b None)) (K := keys_maps (set_nth maps b None)); auto.
    + apply Forall2_set_nth; [exact Rv|]. constructor.
    + clear Q PV. perm_nat.
  - eapply out_bind; [apply var_rel, Rm|]. intros x y [R E].
    destruct (af_make_ok m G _ _ f M) as (m1 & a & G1 & -> & Ex & Ra & M1). cbn [bind fst snd].
    pose proof (held_maps_set maps b x None E) as P.
    pose proof (keys_maps_set maps b x None E) as Q. cbn [opt_held app] in P, Q.
    assert (B : out_rel (add_rel G1 (held_vecs vecs ++ held_maps (set_nth maps b None))
                           (keys_maps (set_nth maps b None)))
              (b_add1 hash m1 x name a) (insertOrAssign bytes_eqb hash y name [f])).
    { apply b_add1_rel; auto.
      - eapply mem_ok_perm; [| |exact M1]; [clear Q; perm_nat|clear P; perm_pair].
      - eapply map_rel_ext; eauto.
      - exact (all_nth _ _ _ _ Nm E). }
    destruct B as [r x1 B|e]; cbn [bind]; [|constructor]. destruct r as [m2 mp1]. cbn [fst snd] in *.
    constructor.
    apply (put_map m2 G G1 (held_vecs vecs) vecs maps b x _ _ (m2, mp1) x1 E Ex Rm Nm) with (S := held_vecs vecs ++ held_maps (set_nth maps b None)) (K := keys_maps (set_nth maps b None)); auto.
    + eapply vecs_ext; eauto.
    + clear Q. perm_nat.
  - eapply out_bind; [apply var_rel, Rm|]. intros x y [R E].
    pose proof (held_maps_set maps b x None E) as P.
    pose proof (keys_maps_set maps b x None E) as Q. cbn [opt_held app] in P, Q.
    assert (B : out_rel (add_rel G (held_vecs vecs ++ held_maps (set_nth maps b None))
                           (keys_maps (set_nth maps b None)))
              (b_remove hash m x name) (erase bytes_eqb hash y name)).
    { apply b_remove_rel; auto.
      - eapply mem_ok_perm; [| |exact M]; [clear Q; perm_nat|clear P; perm_pair].
      - exact (all_nth _ _ _ _ Nm E). }
    destruct B as [r x1 B|e]; cbn [bind]; [|constructor]. destruct r as [m2 mp1]. cbn [fst snd] in *.
    constructor.
    apply (put_map m2 G G (held_vecs vecs) vecs maps b x _ _ (m2, mp1) x1 E (ext_refl G) Rm Nm) with (S := held_vecs vecs ++ held_maps (set_nth maps b None)) (K := keys_maps (set_nth maps b None)); auto.
    clear Q. perm_nat.
  - eapply out_bind; [apply var_rel, Rm|]. intros x y [R E]. unfold b_clear.
    pose proof (held_maps_set maps b x None E) as P.
    pose proof (keys_maps_set maps b x None E) as Q. cbn [opt_held app] in P, Q.
    destruct (b_destroy_ok m G (held_vecs vecs ++ held_maps (set_nth maps b None))
                (keys_maps (set_nth maps b None)) x) as (m' & D & M').
    { eapply mem_ok_perm; [| |exact M]; [clear Q; perm_nat|clear P; perm_pair]. }
    unfold b_destroy in D. rewrite D. cbn [bind fst snd]. constructor.
    apply (put_map m' G G (held_vecs vecs) vecs maps b x _ _ (m', clear x) (clear y) E (ext_refl G) Rm Nm) with (S := held_vecs vecs ++ held_maps (set_nth maps b None)) (K := keys_maps (set_nth maps b None)); auto.
    + clear Q. perm_nat.
    + split; [apply clear_rel, R|]. split; [constructor|]. exact M'.
Qed.

Lemma start_rel : world_rel (start (F := F)) no_values.
Proof.
  apply (WorldRel _ _ (fun _ => None)); [|constructor|constructor|constructor].
  assert (W : forall A, wf_hp (@no_cells A)) by (intros A; split; [constructor|easy]).
  constructor; cbn; try apply W; try easy; constructor.
Qed.

Lemma runs_rel os : forall w s, world_rel w s -> out_rel world_rel (runs_h types hash w os) (runs_s hash s os).
Proof.
  induction os as [|o os IH]; intros w s H; cbn [runs_h runs_s]; [now constructor|].
  eapply out_bind; [apply step_rel, H|]. intros a b. apply IH.
Qed.

(** ** Reading *)

Lemma in_held_map mp i n s : nth_error (nodes mp) i = Some n -> In s (held_vec (c_functors (n_val n))) ->
  In s (held_map mp).
Proof.
  intros E I. unfold held_map. apply in_flat_map. exists (entry n). split; [|exact I].
  apply (nth_error_In _ i), iterate_at, E.
Qed.

Lemma in_opt {A B} (g : A -> list B) l i x y : nth_error l i = Some (Some x) -> In y (g x) ->
  In y (flat_map (opt_held g) l).
Proof.
  intros E I. apply in_flat_map. exists (Some x). split; [eapply nth_error_In, E|exact I].
Qed.

Lemma lookup_rel w s b name : world_rel w s ->
  lookup_h hash w b name = reads types name (lookup_s hash s b name).
Proof.
  intros [G M Rv Rm Nm]. destruct w as [m vecs maps], s as [svecs smaps].
  cbn [w_mem w_vecs w_maps s_vecs s_maps] in *. unfold reads, lookup_h, lookup_s.
  cbn [w_mem w_vecs w_maps s_vecs s_maps].
  pose proof (var_rel _ _ _ b Rm) as V.
  destruct (var maps b) as [x|f]; inversion V as [? y [R E] E1 E2|]; subst; [|reflexivity].
  cbn [bind]. unfold b_get, find.
  pose proof (findNodeIndex_rel key_eqb bytes_eqb (khash hash) hash key_rel (cmd_rel G)
    key_rel_eqb key_rel_hash x y (as_key name) name R eq_refl) as RI.
  destruct (findNodeIndex key_eqb (khash hash) x (as_key name)) as [i|f] eqn:EI;
    inversion RI as [? i' Ei E3 E4|]; subst; [|reflexivity]. cbn [bind].
  destruct i' as [i|]; [|reflexivity].
  destruct (findNodeIndex_sound _ _ _ _ _ EI) as (n & En & Ek). apply SerializerProofs.bytes_eqb_eq in Ek.
  cbn [as_key k_text] in Ek.
  pose proof (at_rel key_rel (cmd_rel G) _ _ i (proj2 R)) as RA. rewrite (at_some _ _ _ En) in *.
  inversion RA as [? n' (Rk & Rc & _) E5 E6|]; subst. cbn [bind].
  pose proof (all_nth _ _ _ _ Nm E) as NN. unfold all_named in NN. rewrite Forall_forall in NN.
  specialize (NN (entry n) (nth_error_In _ i (iterate_at _ _ _ En))). unfold named in NN. cbn [entry fst snd] in NN.
  assert (T : read_name m (n_val n) = Done (k_text (n_key n))).
  { unfold read_name. rewrite NN. unfold deref.
    rewrite (in_cell _ _ (k_text (n_key n)) (proj1 (ok_keys _ _ _ _ M))).
    - cbn. now rewrite firstn_all.
    - eapply Permutation_in; [symmetry; apply (ok_names _ _ _ _ M)|].
      eapply in_opt; [exact E|]. unfold keys_map. apply (in_map key_of _ (entry n)).
      apply (nth_error_In _ i), iterate_at, En. }
  rewrite T. cbn [bind].
  destruct (targets_ok m G _ _ (v_items (c_functors (n_val n))) (n_val n') M) as [T1 T2].
  - intros s Is. apply in_or_app. right. eapply in_opt; [exact E|]. eapply in_held_map; eauto.
  - exact Rc.
  - now rewrite T1, T2.
Qed.

(** ** What is alive *)

Lemma ghost_items G l fs : Forall2 (fun_rel G) l fs -> map G (held_items l) = map Some fs.
Proof.
  induction 1 as [|x f l fs (a & E & Eg & _) _ IH]; [reflexivity|]. unfold held_items, held in *.
  cbn [flat_map]. rewrite E. cbn. rewrite IH. congruence.
Qed.

Lemma ghost_map G mp x : map_rel G mp x ->
  map G (held_map mp) = map Some (flat_map (@snd bytes (list F)) (iterate x)).
Proof.
  intros [_ N]. unfold held_map, iterate. induction N as [|n n' l l' (_ & R & _) _ IH]; [reflexivity|].
  cbn [map flat_map]. rewrite !map_app, IH. f_equal. apply ghost_items, R.
Qed.

Lemma keys_map_rel G mp x : map_rel G mp x -> map snd (keys_map mp) = map (@fst bytes (list F)) (iterate x).
Proof.
  intros [_ N]. unfold keys_map, iterate. induction N as [|n n' l l' (R & _) _ IH]; [reflexivity|].
  cbn. f_equal; [exact R|exact IH].
Qed.

Lemma live_handlers m G S K : mem_ok m G S K ->
  Permutation (map (fun c => Some (snd c)) (h_cells (funcs m))) (map G S).
Proof.
  intros [Wf Ws Wk D H O W I N Gh].
  set (ta s := match cell (h_cells (stores m)) s with Some (Wrapper (Some a)) => a | _ => 0 end).
  transitivity (map (fun a => cell (h_cells (funcs m)) a) (map fst (h_cells (funcs m)))).
  { rewrite map_map. apply Permutation_refl'. apply map_ext_in. intros [a f] E. cbn. symmetry.
    apply in_cell; [apply Wf|exact E]. }
  transitivity (map (fun a => cell (h_cells (funcs m)) a) (map ta S)).
  - apply Permutation_map, NoDup_Permutation; [apply Wf| |].
    + assert (X : forall l, NoDup l -> (forall s, In s l -> In s S) -> NoDup (map ta l)).
      { induction l as [|s l IH]; intros Nd Is; cbn; constructor.
        - inversion Nd as [|? ? N1 N2]; subst. rewrite in_map_iff. intros (t & Et & It). apply N1.
          destruct (H s (Is s (or_introl eq_refl))) as (a & f & Ea & _).
          destruct (H t (Is t (or_intror It))) as (b & g & Eb & _).
          unfold ta in Et. rewrite Ea, Eb in Et. subst b. rewrite (I _ _ _ Ea Eb). exact It.
        - apply IH; [now inversion Nd|]. intros t It. apply Is. now right. }
      apply X; auto.
    + intros a. split.
      * intros E. apply in_map_iff in E. destruct E as ([b f] & <- & E). cbn.
        apply in_cell in E; [|apply Wf]. destruct (W _ _ E) as (s & Es). apply in_map_iff. exists s.
        split; [unfold ta; now rewrite Es|eauto].
      * intros E. apply in_map_iff in E. destruct E as (s & <- & E).
        destruct (H s E) as (a & f & Ea & Ef & _). unfold ta. rewrite Ea.
        apply cell_in in Ef. now apply (in_map fst) in Ef.
  - rewrite map_map. apply Permutation_refl'. apply map_ext_in. intros s E.
    destruct (H s E) as (a & f & Ea & Ef & Eg). unfold ta. rewrite Ea. congruence.
Qed.

Lemma Permutation_map_Some (l l' : list F) : Permutation (map Some l) (map Some l') -> Permutation l l'.
Proof.
  intros P.
  assert (X : forall l : list F, flat_map (opt_held (fun x => [x])) (map Some l) = l).
  { intros l0. induction l0; cbn; congruence. }
  rewrite <- (X l), <- (X l'). now apply Permutation_flat_map.
Qed.

Lemma live_rel w s : world_rel w s ->
  Permutation (map snd (h_cells (funcs (w_mem w)))) (values_handlers s) /\
  length (h_cells (stores (w_mem w))) = length (values_handlers s) /\
  Permutation (map snd (h_cells (keys (w_mem w)))) (values_names s).
Proof.
  intros [G M Rv Rm Nm].
  assert (EH : map G (held_vecs (w_vecs w) ++ held_maps (w_maps w)) = map Some (values_handlers s)).
  { rewrite map_app. unfold values_handlers. rewrite map_app. f_equal.
    - clear - Rv. unfold held_vecs. induction Rv as [|[v|] [fs|] l l' R _ IH]; cbn [flat_map opt_held] in *; try easy.
      rewrite !map_app, IH. f_equal. apply ghost_items, R.
    - clear - Rm. unfold held_maps. induction Rm as [|[v|] [fs|] l l' R _ IH]; cbn [flat_map opt_held] in *; try easy.
      rewrite !map_app, IH. f_equal. apply ghost_map, R. }
  split; [|split].
  - apply Permutation_map_Some. rewrite map_map, <- EH. apply (live_handlers _ _ _ _ M).
  - transitivity (length (held_vecs (w_vecs w) ++ held_maps (w_maps w))).
    + rewrite <- (map_length fst). apply Permutation_length, NoDup_Permutation.
      * apply (ok_stores _ _ _ _ M).
      * apply (ok_nodup _ _ _ _ M).
      * intros a. split; intros E.
        -- apply in_map_iff in E. destruct E as ([b x] & <- & E). cbn.
           apply in_cell in E; [|apply (ok_stores _ _ _ _ M)]. exact (ok_only _ _ _ _ M _ _ E).
        -- destruct (ok_held _ _ _ _ M a E) as (b & f & Ea & _). apply cell_in in Ea.
           now apply (in_map fst) in Ea.
    + rewrite <- (map_length G), EH. apply map_length.
  - assert (EN : map snd (keys_maps (w_maps w)) = values_names s).
    { clear - Rm. unfold keys_maps, values_names.
      induction Rm as [|[v|] [fs|] l l' R _ IH]; cbn [flat_map opt_held] in *; try easy.
      rewrite map_app, IH. f_equal. exact (keys_map_rel _ _ _ R). }
    rewrite <- EN. apply Permutation_map, (ok_names _ _ _ _ M).
Qed.
End Proofs.
