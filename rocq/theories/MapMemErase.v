(** erase on memory does what erase on lists does. *)
From Coq Require Import ZArith Bool PeanoNat Lia List.
From Verif Require Import Util Base Mem MemProofs MemOwners VectorMem VectorMemProofs UMap UMapRel.
From Verif Require Import MapMem MapMemProofs.
Import ListNotations.

Section MapMemErase.
Context {K V : Type}.
Variable keqb : K -> K -> bool.
Variable hash : K -> Z.
Variable movedK : K -> K.
Variable movedV : V -> V.
Variable sizeN sizeI W : nat.
Hypothesis sizeI_pos : 0 < sizeI.
Hypothesis sizeN_big : 3 * sizeI <= sizeN.

Implicit Types (h : mheap K V) (m : mmap K V) (u : umap K V).
Local Notation invalid := (invalid W).
Local Notation rep := (rep sizeN sizeI W).
Local Notation becomes := (becomes sizeN sizeI W).
Local Notation stays := (stays sizeN sizeI W).
Local Notation tight := (tight W).
Local Notation ok := (ok W).
Local Notation enc := (enc W).
Local Notation encn := (encn W).
Local Notation rep_size := (rep_size sizeN sizeI W).
Local Notation rep_buckets := (rep_buckets sizeN sizeI W).

Let nth_some {X} (l : list X) i : i < length l -> exists x, nth_error l i = Some x := nth_some sizeN sizeI sizeI_pos sizeN_big l i.
Let enc_invalid := enc_invalid sizeN sizeI W sizeI_pos sizeN_big.
Let enc_eqb := enc_eqb sizeN sizeI W sizeI_pos sizeN_big.

Lemma assert_at {X} (l : list X) i : assert_ (i <? length l) = (_ <- at_ l i ;; Done tt).
Proof.
  unfold at_. destruct (nth_error l i) as [x|] eqn:E; cbn [bind].
  - assert (i < length l) as H by (apply nth_error_Some; congruence). apply Nat.ltb_lt in H. now rewrite H.
  - apply nth_error_None in E. apply Nat.ltb_ge in E. now rewrite E.
Qed.

(** m_nodes[i].next = x and m_nodes[i].prev = x with the assertions before them. *)
Lemma modify_at h m u i sz f g : rep h m u -> sz = length (nodes u) -> (forall n, f (encn n) = encn (g n)) ->
  (forall n, node_ok W n -> node_ok W (g n)) ->
  out_rel (fun h' ns => becomes h m h' (UMap (buckets u) ns))
    (_ <- assert_ (i <? sz) ;; p <- node_at m i ;; modify h p f)
    (n <- at_ (nodes u) i ;; Done (UMap.set_nth (nodes u) i (g n))).
Proof.
  intros R -> Ef Eg. rewrite assert_at.
  destruct (nth_error (nodes u) i) as [n|] eqn:E.
  - rewrite (at_some _ _ _ E). cbn [bind]. assert (i < length (nodes u)) as Hi by (apply nth_error_Some; congruence).
    rewrite (node_at_ok _ _ _ _ _ _ _ R Hi). cbn [bind].
    destruct (modify_ok sizeN sizeI W h m u i n f (g n) R E) as (h' & -> & B).
    { apply Ef. }
    { apply Eg. apply (node_ok_nth _ _ _ _ (rp_ok _ _ _ _ _ _ R) E). }
    constructor. exact B.
  - unfold at_. rewrite E. cbn. constructor.
Qed.

Lemma exchange_ok h m u i j : rep h m u -> i <> j -> i < length (nodes u) -> j < length (nodes u) ->
  exists h' ns, exchange movedK movedV h (ptr m i) (ptr m j) = Done h' /\ swap_nodes (nodes u) i j = Done ns /\
    becomes h m h' (UMap (buckets u) ns).
Proof.
  intros R Hij Hi Hj. unfold exchange, swap_nodes.
  destruct (nth_some _ _ Hi) as (a & Ea). destruct (nth_some _ _ Hj) as (b & Eb).
  rewrite (at_some _ _ _ Ea), (at_some _ _ _ Eb). cbn [bind].
  rewrite (deref_ok _ _ _ _ _ _ _ _ R Ea). cbn [bind].
  set (mv := fun n : node K V => Node (movedK (n_key n)) (movedV (n_val n)) (n_bucket n) (n_prev n) (n_next n)).
  pose proof (node_ok_nth _ _ _ _ (rp_ok _ _ _ _ _ _ R) Ea) as Oa.
  pose proof (node_ok_nth _ _ _ _ (rp_ok _ _ _ _ _ _ R) Eb) as Ob.
  destruct (modify_ok sizeN sizeI W h m u i a (moved_node movedK movedV) (mv a) R Ea) as (h1 & -> & B1); [reflexivity|exact Oa|].
  cbn [bind]. pose proof (proj1 B1) as R1.
  assert (Eb1 : nth_error (UMap.set_nth (nodes u) i (mv a)) j = Some b) by (rewrite uset_nth_neq by assumption; exact Eb).
  rewrite (deref_ok _ _ _ _ _ _ _ _ R1 Eb1). cbn [bind].
  destruct (modify_ok sizeN sizeI W h1 m _ j b (moved_node movedK movedV) (mv b) R1 Eb1) as (h2 & -> & B2); [reflexivity|exact Ob|].
  cbn [bind buckets nodes] in *. pose proof (proj1 B2) as R2.
  assert (Ea2 : nth_error (UMap.set_nth (UMap.set_nth (nodes u) i (mv a)) j (mv b)) i = Some (mv a)).
  { rewrite uset_nth_neq by congruence. now apply uset_nth_eq. }
  destruct (modify_ok sizeN sizeI W h2 m _ i (mv a) (fun _ => encn b) b R2 Ea2) as (h3 & -> & B3); [reflexivity|exact Ob|].
  cbn [bind buckets nodes] in *. pose proof (proj1 B3) as R3.
  rewrite (uset_comm _ j i) in B3, R3 by congruence. rewrite uset_twice in B3, R3.
  assert (Eb3 : nth_error (UMap.set_nth (UMap.set_nth (nodes u) i b) j (mv b)) j = Some (mv b)).
  { apply uset_nth_eq. now rewrite uset_length. }
  destruct (modify_ok sizeN sizeI W h3 m _ j (mv b) (fun _ => encn a) a R3 Eb3) as (h4 & -> & B4); [reflexivity|exact Oa|].
  cbn [buckets nodes] in *. rewrite uset_twice in B4.
  do 2 eexists. split; [reflexivity|]. split; [reflexivity|].
  eapply becomes_trans; [exact B1|]. eapply becomes_trans; [exact B2|]. eapply becomes_trans; [exact B3|exact B4].
Qed.

Local Notation erase_m := (MapMem.erase keqb hash movedK movedV sizeN W).

Lemma erase_ok h m u k : rep h m u -> out_rel (stays h m) (erase_m h m k) (UMap.erase keqb hash u k).
Proof.
  intros R. unfold MapMem.erase, UMap.erase.
  pose proof (find_index_ok keqb hash sizeN sizeI W sizeI_pos sizeN_big h m u k R) as Hf. revert Hf.
  destruct (find_index keqb hash W h m k) as [i|f], (findNodeIndex keqb hash u k) as [o|f'];
    intros Hf; inversion Hf as [? ? (-> & T & L)|]; subst; [|constructor]. clear Hf. cbn [bind].
  rewrite (enc_invalid _ T). destruct o as [idx|]; [|constructor; now apply stays_becomes, becomes_refl].
  cbn [MapMemProofs.enc]. cbn in T. rewrite (rep_size _ _ _ R). apply Nat.ltb_lt in L as L'. rewrite L'. cbn [assert_ bind].
  rewrite (node_at_ok _ _ _ _ _ _ _ R L). cbn [bind].
  destruct (nth_some _ _ L) as (e & Ee). rewrite (deref_ok _ _ _ _ _ _ _ _ R Ee). cbn [bind].
  unfold unlink. rewrite (at_some _ _ _ Ee). cbn [bind].
  destruct (node_ok_nth _ _ _ _ (rp_ok _ _ _ _ _ _ R) Ee) as (T1 & T2 & T3).
  cbn [mn_bucket mn_prev mn_next MapMemProofs.encn].
  rewrite (rep_buckets _ _ _ R).
  destruct (rep_few' sizeN sizeI W sizeI_pos sizeN_big _ _ _ R) as (Fn & Fb). { intros N. rewrite N in L. cbn in L. lia. }
  destruct (n_bucket e) as [eb|] eqn:Eeb; cbn [MapMemProofs.enc].
  2: { assert (invalid <? length (buckets u) = false) as -> by (apply Nat.ltb_ge; unfold MapMem.invalid; lia). constructor. }
  destruct (nth_error (buckets u) eb) as [head|] eqn:Eh.
  2: { unfold at_. rewrite Eh. apply nth_error_None in Eh. apply Nat.ltb_ge in Eh. rewrite Eh. constructor. }
  assert (eb < length (buckets u)) as Leb by (apply nth_error_Some; congruence).
  apply Nat.ltb_lt in Leb as Leb'. rewrite Leb'. cbn [assert_ bind]. rewrite (at_some _ _ _ Eh). cbn [bind].
  pose proof (bucket_ok_nth _ _ _ _ (rp_ok _ _ _ _ _ _ R) Eh) as Th.
  rewrite (get_bucket_ok _ _ _ _ _ _ _ _ R Eh). cbn [bind].
  rewrite (enc_invalid _ T2), (enc_eqb _ _ Th T).
  (* the first link *)
  match goal with |- out_rel _ (bind ?x _) (bind (bind ?y _) _) => assert (H1 : out_rel (becomes h m) x y) end.
  { destruct (n_prev e) as [p|] eqn:Ep; cbn [negb].
    - assert (Eq : match head with Some h0 => negb (h0 =? idx) | None => true end =
                   negb match head with Some j => j =? idx | None => false end) by (destruct head; reflexivity).
      rewrite Eq. destruct (negb _); [|constructor]. cbn [assert_ bind MapMemProofs.enc].
      match goal with |- out_rel _ ?x _ => rewrite <- (bind_done x) end.
      eapply out_bind; [apply (modify_at h m u p _ (with_next (enc (n_next e))) (fun n => set_next n (n_next e)) R)|].
      + reflexivity.
      + reflexivity.
      + intros n (A & B & C). now repeat split.
      + intros h' ns B. now constructor.
    - destruct (match head with Some j => j =? idx | None => false end); [|constructor]. cbn [assert_ bind].
      destruct (set_bucket_ok sizeN sizeI W sizeI_pos sizeN_big h m u eb (n_next e) R Leb T3) as (h' & -> & B). now constructor. }
  revert H1. match goal with |- out_rel _ ?x ?y -> _ => destruct x as [h1|], y as [u1|] end;
    intros H1; inversion H1 as [? ? B1|]; subst; [|constructor]. clear H1. cbn [bind].
  destruct (becomes_length _ _ _ _ _ _ _ _ R B1) as (L1 & Lb1). pose proof (proj1 B1) as R1.
  destruct (nth_some (nodes u1) idx) as (e1 & Ee1); [lia|].
  rewrite (deref_ok _ _ _ _ _ _ _ _ R1 Ee1), (at_some _ _ _ Ee1). cbn [bind].
  destruct (node_ok_nth _ _ _ _ (rp_ok _ _ _ _ _ _ R1) Ee1) as (U1 & U2 & U3).
  cbn [mn_bucket mn_prev mn_next MapMemProofs.encn]. rewrite (enc_invalid _ U3).
  (* the second link *)
  match goal with |- out_rel _ (bind ?x _) (bind (bind ?y _) _) =>
    assert (H2 : out_rel (fun h' ns => becomes h1 m h' (UMap (buckets u1) ns)) x y) end.
  { destruct (n_next e1) as [p|] eqn:Ep; cbn [negb MapMemProofs.enc].
    - apply (modify_at h1 m u1 p _ (with_prev (enc (n_prev e1))) (fun n => set_prev n (n_prev e1)) R1).
      + now symmetry.
      + reflexivity.
      + intros n (A & B & C). now repeat split.
    - constructor. destruct u1. now apply becomes_refl. }
  revert H2. match goal with |- out_rel _ ?x ?y -> _ => destruct x as [h2|], y as [ns2|] end;
    intros H2; inversion H2 as [? ? B2|]; subst; [|constructor]. clear H2. cbn [bind].
  destruct (becomes_length _ _ _ _ _ _ _ _ R1 B2) as (L2 & Lb2). cbn [nodes buckets] in L2, Lb2. pose proof (proj1 B2) as R2.
  destruct (nth_some ns2 idx) as (e2 & Ee2); [lia|].
  destruct (node_ok_nth _ _ _ _ (rp_ok _ _ _ _ _ _ R2) Ee2) as (X1 & X2 & X3).
  destruct (modify_ok sizeN sizeI W h2 m _ idx e2 (with_prev invalid) (set_prev e2 None) R2 Ee2) as (h3 & -> & B3);
    [reflexivity|now repeat split|].
  cbn [bind buckets nodes] in *. unfold put_prev at 1. rewrite (at_some _ _ _ Ee2). cbn [bind].
  pose proof (proj1 B3) as R3.
  assert (Ee3 : nth_error (UMap.set_nth ns2 idx (set_prev e2 None)) idx = Some (set_prev e2 None))
    by (apply uset_nth_eq; lia).
  destruct (modify_ok sizeN sizeI W h3 m _ idx _ (with_next invalid) (set_next (set_prev e2 None) None) R3 Ee3) as (h4 & -> & B4);
    [reflexivity|now repeat split|].
  cbn [bind buckets nodes] in *. unfold put_next at 1. rewrite (at_some _ _ _ Ee3). cbn [bind].
  pose proof (proj1 B4) as R4.
  set (u4 := UMap (buckets u1) (UMap.set_nth (UMap.set_nth ns2 idx (set_prev e2 None)) idx (set_next (set_prev e2 None) None))) in *.
  assert (L4 : length (nodes u4) = length (nodes u)) by (cbn [u4 nodes]; rewrite !uset_length; lia).
  assert (P4 : becomes h m h4 u4).
  { eapply becomes_trans; [exact B1|]. eapply becomes_trans; [exact B2|]. eapply becomes_trans; [exact B3|exact B4]. }
  clearbody u4. clear B2 B3 B4 R2 R3 Ee2 Ee3 X1 X2 X3.
  (* filling the hole *)
  unfold relocate. rewrite L4. destruct (length (nodes u)) as [|last] eqn:Ln; [lia|].
  cbn [Nat.eqb negb assert_ bind]. replace (S last - 1) with last by lia.
  assert (Nb : forall h u, rep h m u -> length (nodes u) = S last -> node_back m = Done (ptr m last)).
  { clear - R. intros h' u' R' L'. unfold node_back. rewrite (rep_size _ _ _ R'), L'. cbn [Nat.eqb negb assert_ bind].
    replace (S last - 1) with last by lia. apply (node_at_ok _ _ _ _ _ _ _ R'). lia. }
  match goal with |- out_rel _ (bind ?x _) (bind ?y _) => assert (H5 : out_rel (becomes h4 m) x y) end.
  { destruct (idx =? last) eqn:El; cbn [negb]; [constructor; now apply becomes_refl|]. apply Nat.eqb_neq in El.
    rewrite (Nb _ _ R4 L4). cbn [bind].
    destruct (nth_some (nodes u4) last) as (l & Ell); [lia|]. rewrite (deref_ok _ _ _ _ _ _ _ _ R4 Ell), (at_some _ _ _ Ell).
    cbn [bind mn_prev mn_bucket MapMemProofs.encn].
    destruct (node_ok_nth _ _ _ _ (rp_ok _ _ _ _ _ _ R4) Ell) as (Y1 & Y2 & Y3). rewrite (enc_invalid _ Y2).
    eapply out_bind with (R := becomes h4 m).
    - destruct (n_prev l) as [p|]; cbn [negb MapMemProofs.enc].
      + match goal with |- out_rel _ ?x _ => rewrite <- (bind_done x) end.
        eapply out_bind; [apply (modify_at h4 m u4 p _ (with_next idx) (fun n => set_next n (Some idx)) R4)|].
        * now symmetry.
        * reflexivity.
        * intros n (A & B & C). now repeat split.
        * intros h' ns B. now constructor.
      + destruct (n_bucket l) as [lb|]; cbn [MapMemProofs.enc].
        2: { assert (invalid <? length (buckets u) = false) as -> by (apply Nat.ltb_ge; unfold MapMem.invalid; lia). constructor. }
        destruct (becomes_length _ _ _ _ _ _ _ _ R P4) as (_ & Lb4). rewrite <- Lb4.
        rewrite assert_at. destruct (nth_error (buckets u4) lb) as [x|] eqn:Ex.
        * rewrite (at_some _ _ _ Ex). cbn [bind].
          destruct (set_bucket_ok sizeN sizeI W sizeI_pos sizeN_big h4 m u4 lb (Some idx) R4) as (h' & E' & B).
          { apply nth_error_Some. congruence. }
          { exact T. }
          cbn [MapMemProofs.enc] in E'. rewrite E'. now constructor.
        * unfold at_. rewrite Ex. constructor.
    - intros h5 u5 B5. destruct (becomes_length _ _ _ _ _ _ _ _ R4 B5) as (L5 & _).
      destruct (exchange_ok h5 m u5 idx last (proj1 B5) El) as (h6 & ns & -> & -> & B6); [lia|lia|].
      constructor. eapply becomes_trans; [exact B5|exact B6]. }
  revert H5. match goal with |- out_rel _ ?x ?y -> _ => destruct x as [h5|], y as [u5|] end;
    intros H5; inversion H5 as [? ? B5|]; subst; [|constructor]. clear H5. cbn [bind].
  destruct (becomes_length _ _ _ _ _ _ _ _ R4 B5) as (L5 & _). pose proof (proj1 B5) as R5. rewrite L4 in L5.
  rewrite (Nb _ _ R5 L5). cbn [bind].
  (* popBack *)
  unfold pop_node. rewrite L5.
  destruct (nth_some (nodes u5) last) as (l & Ell); [lia|]. rewrite (deref_ok _ _ _ _ _ _ _ _ R5 Ell), (at_some _ _ _ Ell).
  cbn [bind mn_prev mn_next MapMemProofs.encn].
  destruct (node_ok_nth _ _ _ _ (rp_ok _ _ _ _ _ _ R5) Ell) as (Y1 & Y2 & Y3).
  rewrite (enc_invalid _ Y2), (enc_invalid _ Y3).
  destruct (n_prev l); [constructor|]. cbn [assert_ bind]. destruct (n_next l); [constructor|]. cbn [assert_ bind].
  assert (El : nodes u5 = firstn last (nodes u5) ++ [l]).
  { rewrite <- (firstn_skipn last (nodes u5)) at 1. f_equal. rewrite (skipn_nth _ _ _ _ Ell). f_equal.
    apply skipn_all2. lia. }
  pose proof (rp_n _ _ _ _ _ _ R5) as Rn. rewrite El, map_app in Rn. cbn [map] in Rn.
  destruct (pop_ok sizeN W ltac:(lia) (h_nodes h5) (mm_nodes m) _ _ Rn) as (g & b & Eg & Rg & Ev & Cap & _).
  assert (Sh : m_ptr b = m_ptr (mm_nodes m) /\ length (blocks g) = length (blocks (h_nodes h5))).
  { revert Eg. unfold vec_pop. destruct (assert_ _); [|discriminate]. cbn [bind]. apply destructLast_shape. }
  rewrite Eg. cbn [bind fst snd]. constructor.
  assert (P5 : becomes h m h5 u5) by (eapply becomes_trans; [exact P4|exact B5]).
  destruct P5 as (_ & Q1 & Q2 & Q3). destruct Sh as (S1 & S2).
  unfold MapMemProofs.stays. cbn [mm_buckets mm_nodes h_buckets h_nodes].
  split; [|split; [exact Q1|split; [|split; [exact S1|split; [exact Cap|congruence]]]]].
  - constructor; cbn [mm_buckets mm_nodes h_buckets h_nodes buckets nodes].
    + exact (rp_b _ _ _ _ _ _ R5).
    + exact Rg.
    + destruct (rp_ok _ _ _ _ _ _ R5) as (A & B). split; [exact A|]. rewrite El in B. apply Forall_app in B. now destruct B.
  - eapply evolves_trans; [exact Q2|exact Ev].
Qed.
End MapMemErase.
