(** C51: moving Bindings. *)
From Coq Require Import Ascii String NArith ZArith Bool PeanoNat Lia List.
From Verif Require Import Util Base UMap UMapSpec UMapProofs UMapMore Lifetimes Moves MovesSpec P_UMap.
Import ListNotations.

Section C51.
Context {K V L : Type}.
Variable keqb : K -> K -> bool.
Variable hash : K -> Z.
Variable default_lexer : L.
Hypothesis Hk : eq_ok keqb.

(** The model of an object with the given registry. *)
Definition brep (c : content K V) (m : umap K V) : Prop :=
  match c with
  | Holds h => harmless_history keqb hash h /\ run keqb hash h = Done m
  | Husk => m = UMap [] []
  end.

Definition brel (a : objects K V L) (w : vars (bindings K V L)) : Prop :=
  forall i, match a i, w i with
            | Some (l, c), Some b => b_lexer b = l /\ brep c (b_commands b)
            | None, None => True
            | _, _ => False
            end.

Lemma brel_none a w i : brel a w -> a i = None -> w i = None.
Proof. intros R H. specialize (R i). rewrite H in R. destruct (w i); [contradiction|reflexivity]. Qed.

Lemma brel_some a w i l c : brel a w -> a i = Some (l, c) ->
  exists b, w i = Some b /\ b_lexer b = l /\ brep c (b_commands b).
Proof. intros R H. specialize (R i). rewrite H in R. destruct (w i) as [b|]; [eauto|contradiction]. Qed.

Lemma brel_put a w i l c b : brel a w -> b_lexer b = l -> brep c (b_commands b) ->
  brel (bset a i (Some (l, c))) (var_put w i (Some b)).
Proof. intros R H1 H2 j. unfold bset, var_put. destruct (j =? i); [auto|apply R]. Qed.

Lemma run_from_snoc st : forall h (m : umap K V) o,
  run_from st m (h ++ [o]) = (m' <- run_from st m h ;; st m' o).
Proof.
  induction h as [|x h IH]; intros m o; cbn.
  - now destruct (st m o).
  - destruct (st m x); [apply IH|reflexivity].
Qed.

Lemma bindings_eta (b : bindings K V L) : Bindings (b_lexer b) (UMap (buckets (b_commands b)) (nodes (b_commands b))) = b.
Proof. now destruct b as [l [bs ns]]. Qed.

Lemma bstep_refines o a a' w : brel a w -> bmeans keqb hash default_lexer a o a' ->
  exists w', bstep keqb hash default_lexer w o = Done w' /\ brel a' w'.
Proof.
  intros R H. destruct H; cbn [bstep]; unfold var_free, var_get.
  - rewrite (brel_none _ _ _ R H). cbn [bind]. eexists. split; [reflexivity|].
    apply brel_put; [assumption|reflexivity|]. split; [exact I|reflexivity].
  - destruct c as [l c]. destruct (brel_some _ _ _ _ _ R H0) as (b & Wj & Bl & Bc).
    rewrite (brel_none _ _ _ R H), Wj. cbn [bind]. eexists. split; [reflexivity|].
    unfold b_move, map_move, vec_move, ptr_move. cbn [fst snd]. rewrite bindings_eta.
    apply brel_put; [|assumption|assumption]. apply brel_put; [assumption|reflexivity|reflexivity].
  - destruct b as [l c1], c as [l' c2].
    destruct (brel_some _ _ _ _ _ R H) as (x & Wi & Xl & Xc).
    destruct (brel_some _ _ _ _ _ R H0) as (y & Wj & Yl & Yc).
    rewrite Wi, Wj. cbn [bind]. eexists. split; [reflexivity|].
    unfold b_assign, map_assign, vec_assign, ptr_assign. cbn [fst snd]. rewrite !bindings_eta.
    apply brel_put; [|assumption|assumption]. now apply brel_put.
  - destruct (brel_some _ _ _ _ _ R H) as (x & Wi & Xl & Xc). rewrite Wi. cbn [bind].
    eexists. split; [reflexivity|]. now apply brel_put.
  - destruct (brel_some _ _ _ _ _ R H) as (x & Wi & Xl & Xh & Xr). rewrite Wi. cbn [bind].
    destruct (C20_registry_is_map_partial K V keqb hash Hk _ H0) as (m & E & _).
    pose proof E as E'. unfold run in E'. rewrite run_from_snoc in E'. unfold run in Xr.
    rewrite Xr in E'. cbn [bind] in E'. rewrite E'. cbn [bind].
    eexists. split; [reflexivity|]. apply brel_put; [assumption|assumption|]. now split.
  - destruct (brel_some _ _ _ _ _ R H) as (x & Wi & Xl & Xc). rewrite Wi. cbn [bind step].
    eexists. split; [reflexivity|]. apply brel_put; [assumption|assumption|].
    cbn in *. now rewrite Xc.
  - destruct b as [l c]. destruct (brel_some _ _ _ _ _ R H) as (x & Wi & _). rewrite Wi. cbn [bind].
    eexists. split; [reflexivity|]. intros j. unfold bset, var_put. destruct (j =? i); [exact I|apply R].
Qed.

Lemma bprogram_refines os : forall a a' w, brel a w -> bprogram keqb hash default_lexer a os a' ->
  exists w', bruns keqb hash default_lexer w os = Done w' /\ brel a' w'.
Proof.
  induction os as [|o os IH]; intros a a' w R H; inversion H; subst.
  - exists w. auto.
  - destruct (bstep_refines _ _ _ _ R H3) as (w1 & E1 & R1). cbn. rewrite E1. cbn [bind]. eauto.
Qed.

(** Every program runs; afterwards every name resolves in an object as its history says,
    wherever the object was moved in between, and its lexer moved along. *)
Theorem C51_moves_transfer : forall (os : list (bop K V L)) (a : objects K V L),
  bprogram keqb hash default_lexer (fun _ => None) os a ->
  exists w : vars (bindings K V L), bruns keqb hash default_lexer (fun _ => None) os = Done w /\
    forall i, match a i with
              | None => w i = None
              | Some (l, Holds h) => exists b, w i = Some b /\ b_lexer b = l /\
                  forall k, b_get keqb hash b k = Done (ideal keqb h k)
              | Some (l, Husk) => exists b, w i = Some b /\ b_lexer b = l /\
                  forall k, b_get keqb hash b k = Fault DivByZero
              end.
Proof.
  intros os a H.
  destruct (bprogram_refines os (fun _ => None) a (fun _ => None) (fun _ => I) H) as (w & E & R).
  exists w. split; [assumption|]. intros i. destruct (a i) as [[l [h|]]|] eqn:Ai.
  - destruct (brel_some _ _ _ _ _ R Ai) as (b & Wi & Bl & Bh & Br). exists b. do 2 (split; [assumption|]).
    destruct (C20_registry_is_map_partial K V keqb hash Hk _ Bh) as (m & E' & Fa).
    intros k. unfold b_get. rewrite Br in E'. injection E' as ->. apply Fa.
  - destruct (brel_some _ _ _ _ _ R Ai) as (b & Wi & Bl & Bc). exists b. do 2 (split; [assumption|]).
    intros k. unfold b_get. cbn in Bc. now rewrite Bc.
  - apply (brel_none _ _ _ R Ai).
Qed.
End C51.

(** Whatever was done before, also with harmful removals: every lookup gives exactly what it
    gave, a fault if it was one. *)
Theorem C51_move_is_exact : forall (K V L : Type) keqb (hash : K -> Z) (d : L)
    (w : vars (bindings K V L)) i j b,
  w i = None -> w j = Some b ->
  exists w' b' husk, bstep keqb hash d w (BMove i j) = Done w' /\ w' i = Some b' /\ w' j = Some husk /\
    b_useLexer b' = b_useLexer b /\ (forall k, b_get keqb hash b' k = b_get keqb hash b k) /\
    iterate (b_commands b') = iterate (b_commands b) /\
    (forall n, n <> i -> n <> j -> w' n = w n).
Proof.
  intros K V L keqb hash d w i j b Hi Hj. assert (j <> i) as N by congruence.
  cbn [bstep]. unfold var_free, var_get. rewrite Hi, Hj. cbn [bind].
  do 3 eexists. split; [reflexivity|]. unfold var_put. rewrite !Nat.eqb_refl.
  split; [reflexivity|]. apply Nat.eqb_neq in N. rewrite N. split; [reflexivity|].
  destruct b as [l [bs ns]]. do 3 (split; [reflexivity|]).
  intros n H1 H2. apply Nat.eqb_neq in H1, H2. now rewrite H1, H2.
Qed.

Theorem C51_assignment_exchanges : forall (K V L : Type) keqb (hash : K -> Z) (d : L)
    (w : vars (bindings K V L)) i j a b,
  w i = Some a -> w j = Some b ->
  exists w' a' b', bstep keqb hash d w (BAssign i j) = Done w' /\ w' i = Some a' /\ w' j = Some b' /\
    b_useLexer a' = b_useLexer b /\ b_useLexer b' = b_useLexer a /\
    (forall k, b_get keqb hash a' k = b_get keqb hash b k) /\
    (forall k, b_get keqb hash b' k = b_get keqb hash a k) /\
    (forall n, n <> i -> n <> j -> w' n = w n).
Proof.
  intros K V L keqb hash d w i j [la [ba na]] [lb [bb nb]] Hi Hj.
  cbn [bstep]. unfold var_get. rewrite Hi, Hj. cbn [bind]. destruct (Nat.eq_dec j i) as [->|N].
  - rewrite Hi in Hj. injection Hj as -> -> ->.
    do 3 eexists. split; [reflexivity|]. unfold var_put. rewrite !Nat.eqb_refl.
    do 6 (split; [reflexivity|]). intros n H1 _. apply Nat.eqb_neq in H1. now rewrite H1.
  - do 3 eexists. split; [reflexivity|]. unfold var_put. apply Nat.eqb_neq in N. rewrite N, !Nat.eqb_refl.
    do 6 (split; [reflexivity|]). intros n H1 H2. apply Nat.eqb_neq in H1, H2. now rewrite H1, H2.
Qed.

(** An object that was moved from cannot be used again: adding, removing and looking up divide
    by the number of buckets, 0, and there is no lexer.  Clearing does not help. *)
Theorem C51_moved_from_unusable : forall (K V L : Type) keqb (hash : K -> Z) (b : bindings K V L),
  let husk := snd (b_move b) in
  b_useLexer husk = Fault AssertFailed /\
  forall cleared, In cleared [b_commands husk; clear (b_commands husk)] ->
  (forall k, find keqb hash cleared k = Fault DivByZero) /\
  (forall k v, insertOrAssign keqb hash cleared k v = Fault DivByZero) /\
  (forall k, erase keqb hash cleared k = Fault DivByZero).
Proof.
  intros K V L keqb hash b husk. split; [reflexivity|].
  intros c [<-|[<-|[]]]; repeat split.
Qed.

(** So "a Bindings object can be used after it was moved from" is false. *)
Theorem C51_reuse_refuted : forall sg,
  bruns bytes_eqb (hash_view sg) tt (fun _ => None)
    [BNew 0; BDo 0 (Add (lit "a") 1); BMove 1 0; BDo 0 Clear; BDo 0 (Add (lit "a") 2)]
  = Fault DivByZero.
Proof. intros sg. destruct sg; vm_compute; reflexivity. Qed.

(** Two objects with commands; the first is moved to a new one, extended there, the husk gets a
    new registry by assignment, and the two live objects are exchanged. *)
Definition ex_moves : list (bop bytes nat nat) :=
  [BNew 0; BDo 0 (Add (lit "a") 1); BDo 0 (Add (lit "b") 2); BMove 1 0;
   BDo 1 (Add (lit "c") 3); BDo 1 (Remove (lit "a")); BNew 2; BSetLexer 2 (Some 7);
   BDo 2 (Add (lit "z") 9); BDo 0 Clear; BAssign 0 2; BAssign 0 1].

Example C51_ex : exists a,
  bprogram bytes_eqb (hash_view true) 5 (fun _ => None) ex_moves a /\
  a 0 = Some (Some 5, Holds [Add (lit "a") 1; Add (lit "b") 2; Add (lit "c") 3; Remove (lit "a")]) /\
  a 1 = Some (Some 7, Holds [Add (lit "z") 9]) /\ a 2 = Some (None, Husk).
Proof.
  eexists. split.
  { unfold ex_moves.
    eapply BP_cons. { apply BM_new. reflexivity. }
    eapply BP_cons. { eapply BM_do; [reflexivity|]. cbn. tauto. }
    eapply BP_cons. { eapply BM_do; [reflexivity|]. cbn. tauto. }
    eapply BP_cons. { eapply BM_move; reflexivity. }
    eapply BP_cons. { eapply BM_do; [reflexivity|]. cbn. tauto. }
    eapply BP_cons. { eapply BM_do; [reflexivity|]. cbn. intuition discriminate. }
    eapply BP_cons. { apply BM_new. reflexivity. }
    eapply BP_cons. { eapply BM_setLexer. reflexivity. }
    eapply BP_cons. { eapply BM_do; [reflexivity|]. cbn. tauto. }
    eapply BP_cons. { eapply BM_clear. reflexivity. }
    eapply BP_cons. { eapply BM_assign; reflexivity. }
    eapply BP_cons. { eapply BM_assign; reflexivity. }
    apply BP_nil. }
  split; [reflexivity|]. split; reflexivity.
Qed.

Example C51_ex_runs : exists w b, bruns bytes_eqb (hash_view true) 5 (fun _ => None) ex_moves = Done w /\
  w 0 = Some b /\ b_get bytes_eqb (hash_view true) b (lit "b") = Done (Some 2) /\
  b_get bytes_eqb (hash_view true) b (lit "a") = Done None.
Proof. eexists _, _. split; [vm_compute; reflexivity|]. split; [reflexivity|]. split; vm_compute; reflexivity. Qed.

(** * Assumptions *)
Print Assumptions C51_moves_transfer.
Print Assumptions C51_move_is_exact.
Print Assumptions C51_assignment_exchanges.
Print Assumptions C51_moved_from_unusable.
Print Assumptions C51_reuse_refuted.
