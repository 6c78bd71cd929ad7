(** C45-C47: Optional, Expected and UniquePtr manage lifetimes. *)
From Coq Require Import Bool PeanoNat Lia List.
From Verif Require Import Util Base Lifetimes LifetimesSpec.
Import ListNotations.

(** ** C45 *)
Section C45.
Context {V : Type}.
Variable moved : V -> V.
Variable self_moved : V -> V.
Variable throws : V -> bool.
Variable torn : V -> V -> V.

(** An Optional object that has the value [c] or none. *)
Definition is_opt (o : optional V) (c : option V) : Prop :=
  m_hasValue o = (match c with Some _ => true | None => false end) /\ m_value o = c.

Definition orel (a : opts) (w : vars (optional V)) : Prop :=
  forall i, match a i, w i with
            | Some c, Some o => is_opt o c
            | None, None => True
            | _, _ => False
            end.

Definition mk (c : option V) : optional V :=
  Opt (match c with Some _ => true | None => false end) c.

Lemma is_opt_mk : forall o c, is_opt o c -> o = mk c.
Proof. intros [h v] c (H1 & H2). cbn in *. subst. reflexivity. Qed.

Lemma orel_some : forall a w i c, orel a w -> a i = Some c -> w i = Some (mk c).
Proof.
  intros a w i c R H. specialize (R i). rewrite H in R.
  destruct (w i) as [o|]; [|contradiction]. now rewrite (is_opt_mk _ _ R).
Qed.

Lemma orel_none : forall a w i, orel a w -> a i = None -> w i = None.
Proof. intros a w i R H. specialize (R i). rewrite H in R. destruct (w i); [contradiction|reflexivity]. Qed.

Lemma orel_put : forall a w i c, orel a w -> orel (set a i (Some c)) (var_put w i (Some (mk c))).
Proof.
  intros a w i c R j. unfold set, var_put. destruct (Nat.eqb j i); [split; reflexivity|apply R].
Qed.

Lemma orel_drop : forall a w i, orel a w -> orel (set a i None) (var_put w i None).
Proof. intros a w i R j. unfold set, var_put. destruct (Nat.eqb j i); [exact I|apply R]. Qed.

Lemma orel_same : forall a w i, orel a w -> a i = None -> orel a (var_put w i None).
Proof.
  intros a w i R H j. unfold var_put. destruct (Nat.eqb j i) eqn:E; [|apply R].
  apply Nat.eqb_eq in E. subst j. now rewrite H.
Qed.

Lemma ostep_refines : forall o a a' t w, orel a w ->
  omeans moved self_moved throws torn a o a' t ->
  exists w', ostep moved self_moved throws torn w o = Done (w', t) /\ orel a' w'.
Proof.
  intros o a a' t w R H. destruct H; cbn [ostep]; unfold var_free, var_get.
  - rewrite (orel_none _ _ _ R H). cbn [bind]. eexists. split; [reflexivity|].
    apply (orel_put _ _ _ None R).
  - rewrite (orel_none _ _ _ R H). cbn [bind]. unfold opt_of, opt_construct. rewrite H0. cbn.
    eexists. split; [reflexivity|]. apply (orel_put _ _ _ (Some v) R).
  - rewrite (orel_none _ _ _ R H). cbn [bind]. unfold opt_of, opt_construct. rewrite H0. cbn.
    eexists. split; [reflexivity|]. now apply orel_same.
  - rewrite (orel_none _ _ _ R H), (orel_some _ _ _ _ R H0). cbn [bind]. unfold opt_copy.
    destruct c as [v|]; cbn.
    + unfold opt_of, opt_construct. rewrite (H1 _ eq_refl). cbn.
      eexists. split; [reflexivity|]. apply (orel_put _ _ _ (Some v) R).
    + eexists. split; [reflexivity|]. apply (orel_put _ _ _ None R).
  - rewrite (orel_none _ _ _ R H), (orel_some _ _ _ _ R H0). cbn. unfold opt_of, opt_construct.
    rewrite H1. cbn. eexists. split; [reflexivity|]. now apply orel_same.
  - rewrite (orel_none _ _ _ R H), (orel_some _ _ _ _ R H0). cbn [bind]. unfold opt_move.
    destruct c as [v|]; cbn.
    + eexists. split; [reflexivity|].
      apply (orel_put _ _ i (Some v)), (orel_put _ _ j (Some (moved v)) R).
    + eexists. split; [reflexivity|]. apply (orel_put _ _ i None), (orel_put _ _ j None R).
  - rewrite (orel_some _ _ _ _ R H), (orel_some _ _ _ _ R H0). cbn [bind]. unfold opt_assign.
    destruct b as [u|], c as [v|]; cbn; unfold opt_construct; rewrite ?(H1 _ eq_refl); cbn;
      (eexists; split; [reflexivity|]).
    + apply (orel_put _ _ _ (Some v) R).
    + apply (orel_put _ _ _ None R).
    + apply (orel_put _ _ _ (Some v) R).
    + apply (orel_put _ _ _ None R).
  - rewrite (orel_some _ _ _ _ R H), (orel_some _ _ _ _ R H0). cbn [bind]. unfold opt_assign.
    destruct b as [u|]; cbn; unfold opt_construct; rewrite H1; cbn; (eexists; split; [reflexivity|]).
    + apply (orel_put _ _ _ (Some (torn u v)) R).
    + apply (orel_put _ _ _ None R).
  - rewrite (orel_some _ _ _ _ R H0), (orel_some _ _ _ _ R H1). cbn [bind].
    apply Nat.eqb_neq in H. rewrite H. unfold opt_assign_move.
    destruct b as [u|], c as [v|]; cbn; (eexists; split; [reflexivity|]).
    + apply (orel_put _ _ i (Some v)), (orel_put _ _ j (Some (moved v)) R).
    + apply (orel_put _ _ i None), (orel_put _ _ j None R).
    + apply (orel_put _ _ i (Some v)), (orel_put _ _ j (Some (moved v)) R).
    + apply (orel_put _ _ i None), (orel_put _ _ j None R).
  - rewrite (orel_some _ _ _ _ R H), Nat.eqb_refl. cbn [bind]. unfold opt_assign_self.
    destruct b as [u|]; cbn; (eexists; split; [reflexivity|]).
    + apply (orel_put _ _ _ (Some (self_moved u)) R).
    + apply (orel_put _ _ _ None R).
  - rewrite (orel_some _ _ _ _ R H). cbn. eexists. split; [reflexivity|].
    apply (orel_put _ _ _ (Some v) R).
  - rewrite (orel_some _ _ _ _ R H). destruct b as [u|]; cbn; (eexists; split; [reflexivity|]);
      now apply orel_drop.
Qed.

Lemma oprogram_refines : forall os a a' w, orel a w ->
  oprogram moved self_moved throws torn a os a' ->
  exists w', oruns moved self_moved throws torn w os = Done w' /\ orel a' w'.
Proof.
  induction os as [|o os IH]; intros a a' w R H; inversion H; subst.
  - exists w. auto.
  - destruct (ostep_refines _ _ _ _ _ R H3) as (w1 & E1 & R1). cbn. rewrite E1. cbn [bind fst].
    apply (IH _ _ _ R1 H5).
Qed.

(** Every program, also one in which copies throw, runs without a lifetime
    fault.  Then every object contains a live object if and only if it says so,
    and reading it gives the value last stored. *)
Theorem C45_programs_read_back : forall os a,
  oprogram moved self_moved throws torn (fun _ => None) os a ->
  exists w, oruns moved self_moved throws torn (fun _ => None) os = Done w /\
    forall i, match a i with
              | None => w i = None
              | Some None => exists o, w i = Some o /\ m_hasValue o = false /\ m_value o = None /\
                               opt_deref o = Fault AssertFailed
              | Some (Some v) => exists o, w i = Some o /\ m_hasValue o = true /\
                                   m_value o = Some v /\ opt_deref o = Done v
              end.
Proof.
  intros os a H. destruct (oprogram_refines os (fun _ => None) _ (fun _ => None) (fun _ => I) H) as (w & E & R).
  exists w. split; [assumption|]. intros i. destruct (a i) as [[v|]|] eqn:Ai.
  - exists (mk (Some v)). rewrite (orel_some _ _ _ _ R Ai). auto.
  - exists (mk None). rewrite (orel_some _ _ _ _ R Ai). auto.
  - apply (orel_none _ _ _ R Ai).
Qed.

(** Every operation on objects that exist is possible; none of them breaks the
    lifetimes, whatever the copies do. *)
Theorem C45_any_operation : forall os a o,
  oprogram moved self_moved throws torn (fun _ => None) os a ->
  match o with
  | ONone i | OOf i _ _ => a i = None
  | OCopy i j | OMove i j => a i = None /\ a j <> None
  | OAssign i j | OAssignMove i j => a i <> None /\ a j <> None
  | OWrite i _ => exists v, a i = Some (Some v)
  | ODestroy i => a i <> None
  end ->
  exists a' t, omeans moved self_moved throws torn a o a' t /\
    exists w w', oruns moved self_moved throws torn (fun _ => None) os = Done w /\
      ostep moved self_moved throws torn w o = Done (w', t).
Proof.
  intros os a o H Ho. destruct (oprogram_refines os (fun _ => None) _ (fun _ => None) (fun _ => I) H) as (w & E & R).
  assert (exists a' t, omeans moved self_moved throws torn a o a' t) as (a' & t & Hm).
  { destruct o as [i|i copy v|i j|i j|i j|i j|i v|i].
    - eexists _, _. now constructor.
    - destruct (copy && throws v) eqn:Et.
      + apply andb_true_iff in Et. destruct Et as (-> & Et). eexists _, _. now apply OM_of_throws.
      + eexists _, _. now apply OM_of.
    - destruct Ho as (Hi & Hj). destruct (a j) as [c|] eqn:Aj; [|congruence].
      destruct c as [v|].
      + destruct (throws v) eqn:Et; eexists _, _; [eapply OM_copy_throws; eauto|].
        eapply OM_copy; eauto. congruence.
      + eexists _, _. eapply OM_copy; eauto. discriminate.
    - destruct Ho as (Hi & Hj). destruct (a j) as [c|] eqn:Aj; [|congruence].
      eexists _, _. eapply OM_move; eauto.
    - destruct Ho as (Hi & Hj). destruct (a i) as [b|] eqn:Ai; [|congruence].
      destruct (a j) as [c|] eqn:Aj; [|congruence]. destruct c as [v|].
      + destruct (throws v) eqn:Et; eexists _, _; [eapply OM_assign_throws; eauto|].
        eapply OM_assign; eauto. congruence.
      + eexists _, _. eapply OM_assign; eauto. discriminate.
    - destruct Ho as (Hi & Hj). destruct (a i) as [b|] eqn:Ai; [|congruence].
      destruct (a j) as [c|] eqn:Aj; [|congruence].
      destruct (Nat.eq_dec i j) as [->|Hn]; eexists _, _; [eapply OM_assign_self; eauto|].
      eapply OM_assign_move; eauto.
    - destruct Ho as (u & Hi). eexists _, _. eapply OM_write; eauto.
    - destruct (a i) as [b|] eqn:Ai; [|congruence]. eexists _, _. eapply OM_destroy; eauto. }
  destruct (ostep_refines _ _ _ _ _ R Hm) as (w' & Es & _). eauto 8.
Qed.

(** operator== on what the objects hold. *)
Theorem C45_equal : forall (V_eqb : V -> V -> bool) os a i j b c,
  (forall x y, reflect (x = y) (V_eqb x y)) ->
  oprogram moved self_moved throws torn (fun _ => None) os a -> a i = Some b -> a j = Some c ->
  exists w x y r, oruns moved self_moved throws torn (fun _ => None) os = Done w /\
    w i = Some x /\ w j = Some y /\ opt_eq V_eqb x y = Done r /\ (r = true <-> b = c) /\
    forall v, exists r', opt_eq_value V_eqb x v = Done r' /\ (r' = true <-> b = Some v).
Proof.
  intros V_eqb os a i j b c Veq H Hi Hj.
  destruct (oprogram_refines os (fun _ => None) _ (fun _ => None) (fun _ => I) H) as (w & E & R).
  pose proof (orel_some _ _ _ _ R Hi) as Wi. pose proof (orel_some _ _ _ _ R Hj) as Wj.
  assert (exists r, opt_eq V_eqb (mk b) (mk c) = Done r /\ (r = true <-> b = c)) as (r & Er & Hr).
  { destruct b as [x|], c as [y|]; cbn; (eexists; split; [reflexivity|]); split; try congruence.
    - destruct (Veq x y); congruence.
    - intros X. injection X as ->. destruct (Veq y y); congruence. }
  exists w, (mk b), (mk c), r. repeat (split; [assumption|]).
  intros v. destruct b as [x|]; cbn; (eexists; split; [reflexivity|]).
  - destruct (Veq x v); split; congruence.
  - split; congruence.
Qed.

End C45.

(** Copies of [13] throw.  A value is stored, moved away, assigned, and lost by
    assigning an empty object; a copy of 13 fails and leaves the target empty. *)
Definition ex_oops : list (oop nat) :=
  [OOf 0 false 7; OMove 1 0; ONone 2; OOf 3 false 13; OAssign 2 3; OCopy 4 3; OOf 4 true 13;
   OAssign 2 1; OWrite 2 8; OAssignMove 0 2; OAssignMove 0 0; ONone 5; OAssign 1 5; ODestroy 3].

Example C45_ex : exists w,
  oruns (fun _ => 100) (fun v => v) (fun v => v =? 13) (fun _ _ => 200) (fun _ => None) ex_oops = Done w /\
  w 0 = Some (Opt true (Some 8)) /\ w 1 = Some (Opt false None) /\
  w 2 = Some (Opt true (Some 100)) /\ w 3 = None /\ w 4 = None.
Proof. eexists. split; [vm_compute; reflexivity|]. repeat split. Qed.

Example C45_ex_meant : exists a,
  oprogram (fun _ => 100) (fun v => v) (fun v => v =? 13) (fun _ _ => 200) (fun _ => None) ex_oops a /\
  a 0 = Some (Some 8) /\ a 1 = Some None /\ a 4 = None.
Proof.
  eexists. split.
  { unfold ex_oops.
    eapply OP_cons. { apply OM_of; reflexivity. }
    eapply OP_cons. { apply (OM_move _ _ _ _ _ 1 0 (Some 7)); reflexivity. }
    eapply OP_cons. { apply OM_none; reflexivity. }
    eapply OP_cons. { apply OM_of; reflexivity. }
    eapply OP_cons. { eapply OM_assign_throws; reflexivity. }
    eapply OP_cons. { eapply OM_copy_throws; reflexivity. }
    eapply OP_cons. { eapply OM_of_throws; reflexivity. }
    eapply OP_cons. { eapply (OM_assign _ _ _ _ _ 2 1 _ (Some 7)); try reflexivity.
                      intros v Hv. injection Hv as <-. reflexivity. }
    eapply OP_cons. { eapply OM_write; reflexivity. }
    eapply OP_cons. { eapply (OM_assign_move _ _ _ _ _ 0 2); [discriminate|reflexivity|reflexivity]. }
    eapply OP_cons. { eapply OM_assign_self; reflexivity. }
    eapply OP_cons. { apply OM_none; reflexivity. }
    eapply OP_cons. { eapply (OM_assign _ _ _ _ _ 1 5 _ None); try reflexivity. discriminate. }
    eapply OP_cons. { eapply OM_destroy; reflexivity. }
    apply OP_nil. }
  repeat split.
Qed.

(** ** C46 *)
Section C46.
Context {V E : Type}.
Variable movedV : V -> V.
Variable movedE : E -> E.
Variable self_movedV : V -> V.
Variable self_movedE : E -> E.
Variable throwsV : V -> bool.
Variable throwsE : E -> bool.
Variable tornV : V -> V -> V.
Variable tornE : E -> E -> E.

Local Notation means := (xmeans movedV movedE self_movedV self_movedE throwsV throwsE tornV tornE).
Local Notation program := (xprogram movedV movedE self_movedV self_movedE throwsV throwsE tornV tornE).
Local Notation step := (xstep movedV movedE self_movedV self_movedE throwsV throwsE tornV tornE).
Local Notation runs := (xruns movedV movedE self_movedV self_movedE throwsV throwsE tornV tornE).

Definition xmk (c : V + E) : expd V E :=
  match c with inl v => Expd (Val v) true | inr e => Expd (Err e) false end.

Definition xrel (a : expds) (w : vars (expd V E)) : Prop := forall i, w i = option_map xmk (a i).

Lemma xrel_put : forall a w i c, xrel a w -> xrel (xset a i (Some c)) (var_put w i (Some (xmk c))).
Proof. intros a w i c R j. unfold xset, var_put. destruct (Nat.eqb j i); [reflexivity|apply R]. Qed.

Lemma xrel_drop : forall a w i, xrel a w -> xrel (xset a i None) (var_put w i None).
Proof. intros a w i R j. unfold xset, var_put. destruct (Nat.eqb j i); [reflexivity|apply R]. Qed.

Lemma xrel_same : forall a w i, xrel a w -> a i = None -> xrel a (var_put w i None).
Proof.
  intros a w i R H j. unfold var_put. destruct (Nat.eqb j i) eqn:E0; [|apply R].
  apply Nat.eqb_eq in E0. subst j. now rewrite H.
Qed.

Lemma xget : forall a w i c, xrel a w -> a i = Some c -> w i = Some (xmk c).
Proof. intros a w i c R H. now rewrite R, H. Qed.
Lemma xno : forall a w i, xrel a w -> a i = None -> w i = None.
Proof. intros a w i R H. now rewrite R, H. Qed.

Lemma xstep_refines : forall o a a' t w, xrel a w -> means a o a' t ->
  exists w', step w o = Done (w', t) /\ xrel a' w'.
Proof.
  intros o a a' t w R H. destruct H; cbn [xstep]; unfold var_free, var_get.
  - rewrite (xno _ _ _ R H). cbn. eexists. split; [reflexivity|]. apply (xrel_put _ _ _ (inl v) R).
  - rewrite (xno _ _ _ R H). cbn. eexists. split; [reflexivity|]. apply (xrel_put _ _ _ (inr e) R).
  - rewrite (xno _ _ _ R H), (xget _ _ _ _ R H0). unfold x_copy, construct_copy.
    destruct c as [v|e]; cbn in *; rewrite H1; cbn; (eexists; split; [reflexivity|]).
    + apply (xrel_put _ _ _ (inl v) R).
    + apply (xrel_put _ _ _ (inr e) R).
  - rewrite (xno _ _ _ R H), (xget _ _ _ _ R H0). unfold x_copy, construct_copy.
    destruct c as [v|e]; cbn in *; rewrite H1; cbn; (eexists; split; [reflexivity|]);
      now apply xrel_same.
  - rewrite (xno _ _ _ R H), (xget _ _ _ _ R H0).
    destruct c as [v|e]; cbn; (eexists; split; [reflexivity|]).
    + apply (xrel_put _ _ i (inl v)), (xrel_put _ _ j (inl (movedV v)) R).
    + apply (xrel_put _ _ i (inr e)), (xrel_put _ _ j (inr (movedE e)) R).
  - rewrite (xget _ _ _ _ R H), (xget _ _ _ _ R H0). unfold x_assign, construct_copy.
    destruct b as [u|f], c as [v|e]; cbn in *; rewrite H1; cbn; (eexists; split; [reflexivity|]).
    + apply (xrel_put _ _ _ (inl v) R).
    + apply (xrel_put _ _ _ (inr e) R).
    + apply (xrel_put _ _ _ (inl v) R).
    + apply (xrel_put _ _ _ (inr e) R).
  - rewrite (xget _ _ _ _ R H), (xget _ _ _ _ R H0). cbn. unfold x_assign. cbn. rewrite H1. cbn.
    eexists. split; [reflexivity|]. apply (xrel_put _ _ _ (inl (tornV u v)) R).
  - rewrite (xget _ _ _ _ R H), (xget _ _ _ _ R H0). cbn. unfold x_assign. cbn. rewrite H1. cbn.
    eexists. split; [reflexivity|]. apply (xrel_put _ _ _ (inr (tornE e f)) R).
  - rewrite (xget _ _ _ _ R H0), (xget _ _ _ _ R H1). apply Nat.eqb_neq in H. cbn [bind].
    rewrite H. unfold x_assign_move, construct_move.
    destruct b as [u|f], c as [v|e]; cbn; (eexists; split; [reflexivity|]).
    + apply (xrel_put _ _ i (inl v)), (xrel_put _ _ j (inl (movedV v)) R).
    + apply (xrel_put _ _ i (inr e)), (xrel_put _ _ j (inr (movedE e)) R).
    + apply (xrel_put _ _ i (inl v)), (xrel_put _ _ j (inl (movedV v)) R).
    + apply (xrel_put _ _ i (inr e)), (xrel_put _ _ j (inr (movedE e)) R).
  - rewrite (xget _ _ _ _ R H), Nat.eqb_refl. unfold x_assign_self.
    destruct b as [u|f]; cbn; (eexists; split; [reflexivity|]).
    + apply (xrel_put _ _ _ (inl (self_movedV u)) R).
    + apply (xrel_put _ _ _ (inr (self_movedE f)) R).
  - rewrite (xget _ _ _ _ R H). destruct b as [u|f]; cbn; (eexists; split; [reflexivity|]);
      now apply xrel_drop.
Qed.

Lemma xprogram_refines : forall os a a' w, xrel a w -> program a os a' ->
  exists w', runs w os = Done w' /\ xrel a' w'.
Proof.
  induction os as [|o os IH]; intros a a' w R H; inversion H; subst.
  - exists w. auto.
  - destruct (xstep_refines _ _ _ _ _ R H3) as (w1 & E1 & R1). cbn. rewrite E1. cbn [bind fst].
    apply (IH _ _ _ R1 H5).
Qed.

(** Every program in which no copy assignment between a value and an error
    throws runs without a lifetime fault; then every object holds one live value
    or one live error, as hasValue() says. *)
Theorem C46_programs_read_back_partial : forall os a,
  program (fun _ => None) os a ->
  exists w, runs (fun _ => None) os = Done w /\
    forall i, match a i with
              | None => w i = None
              | Some (inl v) => exists x, w i = Some x /\ x_hasValue x = true /\ m_union x = Val v /\
                                  x_value x = Done v /\ x_error x = Fault AssertFailed
              | Some (inr e) => exists x, w i = Some x /\ x_hasValue x = false /\ m_union x = Err e /\
                                  x_error x = Done e /\ x_value x = Fault AssertFailed
              end.
Proof.
  intros os a H. destruct (xprogram_refines os (fun _ => None) _ (fun _ => None) (fun _ => eq_refl) H) as (w & E0 & R).
  exists w. split; [assumption|]. intros i. destruct (a i) as [[v|e]|] eqn:Ai.
  - exists (xmk (inl v)). rewrite (xget _ _ _ _ R Ai). repeat split.
  - exists (xmk (inr e)). rewrite (xget _ _ _ _ R Ai). repeat split.
  - apply (xno _ _ _ R Ai).
Qed.

(** If no copy throws, that is every program on objects that exist. *)
Theorem C46_any_operation_partial : forall os a o,
  (forall v, throwsV v = false) -> (forall e, throwsE e = false) ->
  program (fun _ => None) os a ->
  match o with
  | XOf i _ | XErr i _ => a i = None
  | XCopy i j | XMove i j => a i = None /\ a j <> None
  | XAssign i j | XAssignMove i j => a i <> None /\ a j <> None
  | XDestroy i => a i <> None
  end ->
  exists a', means a o a' false /\
    exists w w', runs (fun _ => None) os = Done w /\ step w o = Done (w', false).
Proof.
  intros os a o TV TE H Ho.
  destruct (xprogram_refines os (fun _ => None) _ (fun _ => None) (fun _ => eq_refl) H) as (w & E0 & R).
  assert (forall c, copy_throws throwsV throwsE c = false) as TC.
  { intros [v|e]; cbn; auto. }
  assert (exists a', means a o a' false) as (a' & Hm).
  { destruct o as [i v|i e|i j|i j|i j|i j|i].
    - eexists. now constructor.
    - eexists. now constructor.
    - destruct Ho as (Hi & Hj). destruct (a j) as [c|] eqn:Aj; [|congruence].
      eexists. eapply XM_copy; eauto.
    - destruct Ho as (Hi & Hj). destruct (a j) as [c|] eqn:Aj; [|congruence].
      eexists. eapply XM_move; eauto.
    - destruct Ho as (Hi & Hj). destruct (a i) as [b|] eqn:Ai; [|congruence].
      destruct (a j) as [c|] eqn:Aj; [|congruence]. eexists. eapply XM_assign; eauto.
    - destruct Ho as (Hi & Hj). destruct (a i) as [b|] eqn:Ai; [|congruence].
      destruct (a j) as [c|] eqn:Aj; [|congruence].
      destruct (Nat.eq_dec i j) as [->|Hn]; eexists; [eapply XM_assign_self; eauto|].
      eapply XM_assign_move; eauto.
    - destruct (a i) as [b|] eqn:Ai; [|congruence]. eexists. eapply XM_destroy; eauto. }
  destruct (xstep_refines _ _ _ _ _ R Hm) as (w' & Es & _). eauto 8.
Qed.

(** operator== on what the objects hold. *)
Theorem C46_equal : forall (V_eqb : V -> V -> bool) (E_eqb : E -> E -> bool) os a i j b c,
  (forall x y, reflect (x = y) (V_eqb x y)) -> (forall x y, reflect (x = y) (E_eqb x y)) ->
  program (fun _ => None) os a -> a i = Some b -> a j = Some c ->
  exists w x y r, runs (fun _ => None) os = Done w /\
    w i = Some x /\ w j = Some y /\ x_eq V_eqb E_eqb x y = Done r /\ (r = true <-> b = c).
Proof.
  intros V_eqb E_eqb os a i j b c Veq Eeq H Hi Hj.
  destruct (xprogram_refines os (fun _ => None) _ (fun _ => None) (fun _ => eq_refl) H) as (w & E0 & R).
  assert (exists r, x_eq V_eqb E_eqb (xmk b) (xmk c) = Done r /\ (r = true <-> b = c)) as (r & Er & Hr).
  { destruct b as [x|x], c as [y|y]; cbn; (eexists; split; [reflexivity|]); split; try congruence.
    - destruct (Veq x y); congruence.
    - intros X. injection X as ->. destruct (Veq y y); congruence.
    - destruct (Eeq x y); congruence.
    - intros X. injection X as ->. destruct (Eeq y y); congruence. }
  exists w, (xmk b), (xmk c), r.
  split; [assumption|]. split; [apply (xget _ _ _ _ R Hi)|]. split; [apply (xget _ _ _ _ R Hj)|]. auto.
Qed.

(** What happens otherwise, in general: the copy assignment leaves an object
    without a contained object, whose destructor destroys one nevertheless. *)
Theorem C46_throwing_assignment_refuted : forall w i j b c,
  w i = Some (xmk b) -> w j = Some (xmk c) ->
  (match b, c with inl _, inr _ | inr _, inl _ => True | _, _ => False end) ->
  copy_throws throwsV throwsE c = true ->
  exists w', step w (XAssign i j) = Done (w', true) /\
    step w' (XDestroy i) = Fault BadLifetime.
Proof.
  intros w i j b c Hi Hj Hk Ht. cbn [xstep]. unfold var_get. rewrite Hi, Hj. cbn [bind].
  unfold x_assign, construct_copy.
  destruct b as [u|f], c as [v|e]; cbn in *; try contradiction; rewrite Ht; cbn;
    (eexists; split; [reflexivity|]); unfold var_put; rewrite Nat.eqb_refl; reflexivity.
Qed.

End C46.

(** The full statement: no program on objects that exist has a lifetime fault. *)
Definition C46_full_statement : Prop :=
  forall (throwsV throwsE : nat -> bool) (os : list (xop nat nat)),
    xruns (fun v => v) (fun v => v) (fun v => v) (fun v => v) throwsV throwsE
      (fun _ v => v) (fun _ v => v) (fun _ => None) os <> Fault BadLifetime \/
    (exists os1 o os2 w, os = os1 ++ o :: os2 /\
       xruns (fun v => v) (fun v => v) (fun v => v) (fun v => v) throwsV throwsE
         (fun _ v => v) (fun _ v => v) (fun _ => None) os1 = Done w /\
       match o with
       | XOf i _ | XErr i _ | XCopy i _ | XMove i _ => w i <> None
       | _ => False
       end).

Theorem C46_full_statement_refuted : ~ C46_full_statement.
Proof.
  intros H.
  destruct (H (fun v => v =? 13) (fun _ => false) [XOf 0 13; XErr 1 5; XAssign 1 0; XDestroy 1])
    as [C|(os1 & o & os2 & w & Eq & Er & C)].
  - apply C. reflexivity.
  - destruct os1 as [|o1 [|o2 [|o3 [|o4 [|o5 os1]]]]]; cbn in Eq; inversion Eq; subst;
      try contradiction; cbn in Er; injection Er as <-; cbn in C; congruence.
Qed.

Example C46_ex : exists w,
  xruns (fun _ => 100) (fun _ => 101) (fun v => v) (fun e => e) (fun v => v =? 13) (fun _ => false)
    (fun _ _ => 200) (fun _ _ => 201) (fun _ => None)
    [XOf 0 7; XErr 1 5; XCopy 2 1; XAssign 1 0; XMove 3 2; XAssignMove 3 0; XOf 4 13; XAssign 3 4;
     XCopy 5 4; XDestroy 4; XAssignMove 2 2] = Done w /\
  w 0 = Some (Expd (Val 100) true) /\ w 1 = Some (Expd (Val 7) true) /\
  w 2 = Some (Expd (Err 101) false) /\ w 3 = Some (Expd (Val 200) true) /\ w 5 = None.
Proof. eexists. split; [vm_compute; reflexivity|]. repeat split. Qed.

Example C46_ex_meant : exists a,
  xprogram (fun _ => 100) (fun _ => 101) (fun v => v) (fun e => e) (fun v => v =? 13) (fun _ => false)
    (fun _ _ => 200) (fun _ _ => 201) (fun _ => None)
    [XOf 0 7; XErr 1 5; XCopy 2 1; XAssign 1 0; XMove 3 2; XAssignMove 3 0; XOf 4 13; XAssign 3 4;
     XCopy 5 4; XDestroy 4; XAssignMove 2 2] a /\
  a 0 = Some (inl 100) /\ a 1 = Some (inl 7) /\ a 2 = Some (inr 101) /\
  a 3 = Some (inl 200) /\ a 4 = None /\ a 5 = None.
Proof.
  eexists. split.
  { eapply XP_cons. { apply XM_of; reflexivity. }
    eapply XP_cons. { apply XM_err; reflexivity. }
    eapply XP_cons. { eapply XM_copy; reflexivity. }
    eapply XP_cons. { eapply XM_assign; reflexivity. }
    eapply XP_cons. { eapply XM_move; reflexivity. }
    eapply XP_cons. { eapply XM_assign_move; [discriminate|reflexivity|reflexivity]. }
    eapply XP_cons. { apply XM_of; reflexivity. }
    eapply XP_cons. { eapply XM_assign_value_throws; reflexivity. }
    eapply XP_cons. { eapply XM_copy_throws; reflexivity. }
    eapply XP_cons. { eapply XM_destroy; reflexivity. }
    eapply XP_cons. { eapply XM_assign_self; reflexivity. }
    apply XP_nil. }
  repeat split.
Qed.

(** ** C47 *)
Section C47.
Context {V : Type}.

Definition alive (w : uworld V) (k : nat) : Prop := exists v, nth_error (u_store w) k = Some (Some v).
Definition owns (w : uworld V) (i k : nat) : Prop := u_ptr w i = Some (Some k).

(** Exactly the objects that are alive are owned, each by one pointer. *)
Record unique_owners (w : uworld V) : Prop := UO {
  uo_alive : forall i k, owns w i k -> alive w k;
  uo_once : forall i j k, owns w i k -> owns w j k -> i = j;
  uo_owned : forall k, alive w k -> exists i, owns w i k
}.

Definition covers (a : nat -> bool) (w : uworld V) : Prop :=
  forall i, a i = match u_ptr w i with Some _ => true | None => false end.

Lemma covers_true : forall a w i, covers a w -> a i = true -> exists p, u_ptr w i = Some p.
Proof. intros a w i C H. rewrite C in H. destruct (u_ptr w i) as [p|]; [eauto|discriminate]. Qed.
Lemma covers_false : forall a w i, covers a w -> a i = false -> u_ptr w i = None.
Proof. intros a w i C H. rewrite C in H. destruct (u_ptr w i); [discriminate|reflexivity]. Qed.

Lemma nth_delete : forall (s : list (option V)) k j v, nth_error s k = Some (Some v) ->
  nth_error (firstn k s ++ None :: skipn (S k) s) j =
  if j =? k then Some None else nth_error s j.
Proof.
  intros s k j v H.
  assert (k < length s) as Hk by (apply nth_error_Some; congruence).
  assert (length (firstn k s) = k) as Hl by (rewrite firstn_length; lia).
  destruct (j =? k) eqn:E.
  - apply Nat.eqb_eq in E. subst j. rewrite nth_error_app2, Hl, Nat.sub_diag by lia. reflexivity.
  - apply Nat.eqb_neq in E. destruct (Nat.lt_ge_cases j k) as [Hj|Hj].
    + rewrite nth_error_app1 by lia. now apply nth_error_firstn_lt.
    + rewrite nth_error_app2, Hl by lia. destruct (j - k) as [|d] eqn:D; [lia|].
      cbn [nth_error]. rewrite nth_error_skipn_add. f_equal. lia.
Qed.

Lemma move_unique : forall w i j p, unique_owners w -> u_ptr w i = None -> u_ptr w j = Some p ->
  unique_owners (UWorld (u_store w) (var_put (var_put (u_ptr w) j (Some None)) i (Some p))).
Proof.
  intros w i j p U Hi Hj. assert (i <> j) as Hij by congruence.
  assert (forall n k, owns (UWorld (u_store w) (var_put (var_put (u_ptr w) j (Some None)) i (Some p))) n k ->
            (n = i /\ owns w j k) \/ (n <> i /\ n <> j /\ owns w n k)) as Cases.
  { intros n k. unfold owns, var_put. cbn. destruct (n =? i) eqn:En.
    - apply Nat.eqb_eq in En. intros X. left. split; congruence.
    - destruct (n =? j) eqn:Em; [discriminate|]. apply Nat.eqb_neq in En, Em. auto. }
  constructor.
  - intros n k H. destruct (Cases _ _ H) as [(_ & O)|(_ & _ & O)]; apply (uo_alive _ U _ _ O).
  - intros n m k H1 H2.
    destruct (Cases _ _ H1) as [(-> & O1)|(A1 & B1 & O1)];
    destruct (Cases _ _ H2) as [(-> & O2)|(A2 & B2 & O2)]; auto.
    + exfalso. apply B2. apply (uo_once _ U _ _ _ O2 O1).
    + exfalso. apply B1. apply (uo_once _ U _ _ _ O1 O2).
    + apply (uo_once _ U _ _ _ O1 O2).
  - intros k H. destruct (uo_owned _ U k H) as (n & O).
    destruct (Nat.eq_dec n j) as [->|Hn].
    + exists i. unfold owns, var_put in *. cbn. rewrite Nat.eqb_refl. congruence.
    + exists n. assert (n <> i) as Hni by (intros ->; unfold owns in O; congruence).
      unfold owns, var_put in *. cbn. apply Nat.eqb_neq in Hn, Hni. now rewrite Hni, Hn.
Qed.

Lemma swap_unique : forall w i j p q, unique_owners w -> u_ptr w i = Some p -> u_ptr w j = Some q ->
  unique_owners (UWorld (u_store w) (var_put (var_put (u_ptr w) i (Some q)) j (Some p))).
Proof.
  intros w i j p q U Hi Hj.
  assert (forall n k, owns (UWorld (u_store w) (var_put (var_put (u_ptr w) i (Some q)) j (Some p))) n k <->
            owns w (if n =? j then i else if n =? i then j else n) k) as Cases.
  { intros n k. unfold owns, var_put. cbn. destruct (n =? j); [rewrite Hi; reflexivity|].
    destruct (n =? i); [rewrite Hj; reflexivity|]. reflexivity. }
  constructor.
  - intros n k H. apply Cases in H. apply (uo_alive _ U _ _ H).
  - intros n m k H1 H2. apply Cases in H1, H2. pose proof (uo_once _ U _ _ _ H1 H2) as X. revert X.
    destruct (n =? j) eqn:E1; destruct (m =? j) eqn:E2; destruct (n =? i) eqn:E3;
      destruct (m =? i) eqn:E4; rewrite ?Nat.eqb_eq, ?Nat.eqb_neq in *; congruence.
  - intros k H. destruct (uo_owned _ U k H) as (n & O).
    exists (if n =? j then i else if n =? i then j else n). apply Cases.
    destruct (n =? j) eqn:E1.
    + apply Nat.eqb_eq in E1. subst n. rewrite Nat.eqb_refl.
      destruct (i =? j) eqn:E2; [apply Nat.eqb_eq in E2; congruence|assumption].
    + destruct (n =? i) eqn:E2.
      * rewrite Nat.eqb_refl. apply Nat.eqb_eq in E2. congruence.
      * now rewrite E1, E2.
Qed.

Lemma ustart_unique : unique_owners ustart.
Proof.
  constructor.
  - intros i k H. discriminate H.
  - intros i j k H. discriminate H.
  - intros k (v & H). cbn in H. destruct k; discriminate.
Qed.

Lemma put_null_unique : forall w i, unique_owners w -> u_ptr w i = None ->
  unique_owners (UWorld (u_store w) (var_put (u_ptr w) i (Some None))).
Proof.
  intros w i U Hi.
  assert (forall n k, owns (UWorld (u_store w) (var_put (u_ptr w) i (Some None))) n k <-> owns w n k) as C.
  { intros n k. unfold owns, var_put. cbn. destruct (n =? i) eqn:En; [|reflexivity].
    apply Nat.eqb_eq in En. subst n. rewrite Hi. split; discriminate. }
  constructor.
  - intros n k H. apply C in H. apply (uo_alive _ U _ _ H).
  - intros n m k H1 H2. apply C in H1, H2. apply (uo_once _ U _ _ _ H1 H2).
  - intros k H. destruct (uo_owned _ U k H) as (n & O). exists n. now apply C.
Qed.

Lemma make_unique : forall w i v, unique_owners w -> u_ptr w i = None ->
  unique_owners (UWorld (u_store w ++ [Some v])
                        (var_put (u_ptr w) i (Some (Some (length (u_store w)))))).
Proof.
  intros w i v U Hi. set (n := length (u_store w)).
  assert (forall k, alive w k -> k < n) as Hlt.
  { intros k (x & Hx). apply nth_error_Some. congruence. }
  assert (forall m k, owns (UWorld (u_store w ++ [Some v]) (var_put (u_ptr w) i (Some (Some n)))) m k ->
            (m = i /\ k = n) \/ (m <> i /\ owns w m k)) as C.
  { intros m k. unfold owns, var_put. cbn. destruct (m =? i) eqn:Em.
    - apply Nat.eqb_eq in Em. intros X. injection X as <-. auto.
    - apply Nat.eqb_neq in Em. auto. }
  constructor.
  - intros m k H. destruct (C _ _ H) as [(_ & ->)|(_ & O)].
    + exists v. cbn. unfold n. rewrite nth_error_app2, Nat.sub_diag by lia. reflexivity.
    + destruct (uo_alive _ U _ _ O) as (x & Hx). exists x. cbn.
      rewrite nth_error_app1; [assumption|]. apply nth_error_Some. congruence.
  - intros m1 m2 k H1 H2.
    destruct (C _ _ H1) as [(-> & ->)|(A1 & O1)]; destruct (C _ _ H2) as [(-> & E2)|(A2 & O2)]; auto.
    + specialize (Hlt _ (uo_alive _ U _ _ O2)). lia.
    + subst k. specialize (Hlt _ (uo_alive _ U _ _ O1)). lia.
    + apply (uo_once _ U _ _ _ O1 O2).
  - intros k (x & Hx). cbn in Hx. destruct (Nat.lt_ge_cases k n) as [Hk|Hk].
    + rewrite nth_error_app1 in Hx by assumption.
      destruct (uo_owned _ U k) as (m & O); [exists x; assumption|].
      exists m. unfold owns, var_put in *. cbn. destruct (m =? i) eqn:Em; [|assumption].
      apply Nat.eqb_eq in Em. congruence.
    + assert (k = n) as ->.
      { assert (k < length (u_store w ++ [Some v])) by (apply nth_error_Some; congruence).
        rewrite app_length in *. cbn in *. unfold n in *. lia. }
      exists i. unfold owns, var_put. cbn. now rewrite Nat.eqb_refl.
Qed.

Lemma destroy_unique : forall w i p, unique_owners w -> u_ptr w i = Some p ->
  exists w', ustep w (UDestroy i) = Done w' /\ unique_owners w' /\
    u_ptr w' = var_put (u_ptr w) i None /\
    forall k, alive w' k <-> alive w k /\ p <> Some k.
Proof.
  intros w i p U Hi. cbn [ustep]. unfold var_get. rewrite Hi. cbn [bind].
  assert (forall st, (forall k, alive (UWorld st (var_put (u_ptr w) i None)) k <-> alive w k /\ p <> Some k) ->
            unique_owners (UWorld st (var_put (u_ptr w) i None))) as Build.
  { intros st Ha.
    assert (forall n k, owns (UWorld st (var_put (u_ptr w) i None)) n k <-> n <> i /\ owns w n k) as C.
    { intros n k. unfold owns, var_put. cbn. destruct (n =? i) eqn:En.
      - apply Nat.eqb_eq in En. split; [discriminate|]. intros (X & _). contradiction.
      - apply Nat.eqb_neq in En. tauto. }
    constructor.
    - intros n k H. apply C in H. destruct H as (Hn & O). apply Ha.
      split; [apply (uo_alive _ U _ _ O)|]. intros ->. apply Hn.
      apply (uo_once _ U _ _ _ O). exact Hi.
    - intros n m k H1 H2. apply C in H1, H2. apply (uo_once _ U _ _ k); tauto.
    - intros k H. apply Ha in H. destruct H as (H & Hp). destruct (uo_owned _ U k H) as (n & O).
      exists n. apply C. split; [|assumption]. intros ->. unfold owns in O. congruence. }
  destruct p as [k0|].
  - destruct (uo_alive _ U i k0 Hi) as (v & Hv). unfold obj_delete. rewrite Hv. cbn [bind].
    assert (forall k, alive (UWorld (firstn k0 (u_store w) ++ None :: skipn (S k0) (u_store w))
                        (var_put (u_ptr w) i None)) k <-> alive w k /\ Some k0 <> Some k) as Ha.
    { intros k. unfold alive. cbn [u_store]. rewrite (nth_delete _ _ _ _ Hv).
      destruct (k =? k0) eqn:Ek.
      - apply Nat.eqb_eq in Ek. subst k. split; [intros (x & X); discriminate|]. intros (_ & X). congruence.
      - apply Nat.eqb_neq in Ek. split; [intros X; split; [assumption|congruence]|tauto]. }
    eexists. split; [reflexivity|]. split; [now apply Build|]. split; [reflexivity|assumption].
  - cbn [bind].
    assert (forall k, alive (UWorld (u_store w) (var_put (u_ptr w) i None)) k <->
              alive w k /\ None <> Some k) as Ha.
    { intros k. split; [intros X; split; [assumption|discriminate]|tauto]. }
    eexists. split; [reflexivity|]. split; [now apply Build|]. split; [reflexivity|assumption].
Qed.

Lemma uruns_unique : forall os a b w, uproper a os b -> covers a w -> unique_owners w ->
  exists w', uruns w os = Done w' /\ covers b w' /\ unique_owners w'.
Proof.
  intros os a b w H. revert w.
  assert (forall a w i (x : option uptr) st, covers a w ->
            covers (exists_after a i (match x with Some _ => true | None => false end))
                   (UWorld st (var_put (u_ptr w) i x) : uworld V)) as Put.
  { intros a0 w i x st C j. unfold exists_after, var_put. cbn. destruct (j =? i); [reflexivity|apply C]. }
  assert (forall a w i (x : uptr) st, covers a w -> a i = true ->
            covers a (UWorld st (var_put (u_ptr w) i (Some x)) : uworld V)) as Re.
  { intros a0 w i x st C Hi j. unfold var_put. cbn. destruct (j =? i) eqn:E; [|apply C].
    apply Nat.eqb_eq in E. now subst. }
  induction H; intros w C U; cbn [uruns].
  - exists w. auto.
  - pose proof (covers_false _ _ _ C H) as Hi. cbn [ustep]. unfold var_free. rewrite Hi. cbn [bind].
    apply IHuproper; [apply (Put a w i (Some _) _ C)|now apply make_unique].
  - pose proof (covers_false _ _ _ C H) as Hi. cbn [ustep]. unfold var_free. rewrite Hi. cbn [bind].
    apply IHuproper; [apply (Put a w i (Some None) _ C)|now apply put_null_unique].
  - pose proof (covers_false _ _ _ C H) as Hi. destruct (covers_true _ _ _ C H0) as (p & Hj).
    cbn [ustep]. unfold var_free, var_get. rewrite Hi, Hj. cbn [bind].
    apply IHuproper; [|now apply move_unique].
    apply (Put a (UWorld (u_store w) (var_put (u_ptr w) j (Some None))) i (Some p) (u_store w)).
    eapply Re; eauto.
  - pose proof (covers_false _ _ _ C H) as Hi. destruct (covers_true _ _ _ C H0) as (p & Hj).
    cbn [ustep]. unfold var_free, var_get. rewrite Hi, Hj. cbn [bind].
    apply IHuproper; [|now apply move_unique].
    apply (Put a (UWorld (u_store w) (var_put (u_ptr w) j (Some None))) i (Some p) (u_store w)).
    eapply Re; eauto.
  - destruct (covers_true _ _ _ C H) as (p & Hi). destruct (covers_true _ _ _ C H0) as (q & Hj).
    cbn [ustep]. unfold var_get. rewrite Hi, Hj. cbn [bind].
    apply IHuproper; [|now apply swap_unique].
    apply (Re a (UWorld (u_store w) (var_put (u_ptr w) i (Some q))) j p (u_store w)); [|assumption].
    apply (Re a w i q (u_store w)); assumption.
  - destruct (covers_true _ _ _ C H) as (p & Hi).
    destruct (destroy_unique w i p U Hi) as (w' & -> & U' & Ep & _). cbn [bind].
    apply IHuproper; [|assumption]. intros j. unfold exists_after. rewrite Ep. unfold var_put.
    destruct (j =? i); [reflexivity|apply C].
Qed.

(** Every program that constructs unused variables and uses existing ones runs
    without deleting anything twice or using anything deleted; then exactly the
    objects not yet deleted are owned, each by exactly one pointer. *)
Theorem C47_unique_owners : forall (os : list (uop V)) b,
  uproper (fun _ => false) os b ->
  exists w, uruns ustart os = Done w /\
    (forall k, alive w k <-> exists i, owns w i k) /\
    (forall i j k, owns w i k -> owns w j k -> i = j) /\
    (forall i, b i = true <-> exists p, u_ptr w i = Some p) /\
    ((forall i, b i = false) -> forall k, ~ alive w k).
Proof.
  intros os b H.
  destruct (uruns_unique os _ _ ustart H (fun _ => eq_refl) ustart_unique) as (w & E & C & U).
  exists w. split; [assumption|]. split; [|split; [apply (uo_once _ U)|split]].
  - intros k. split; [apply (uo_owned _ U)|]. intros (i & O). apply (uo_alive _ U _ _ O).
  - intros i. rewrite (C i). destruct (u_ptr w i) as [p|]; split; eauto; try discriminate.
    intros (p & X). discriminate.
  - intros Hn k Ha. destruct (uo_owned _ U k Ha) as (i & O). specialize (C i). rewrite (Hn i) in C.
    unfold owns in O. rewrite O in C. discriminate.
Qed.

(** The destructor of a pointer deletes the object it owns, and no other. *)
Theorem C47_destroyed_with_owner : forall (os : list (uop V)) b i,
  uproper (fun _ => false) os b -> b i = true ->
  exists w w', uruns ustart os = Done w /\ ustep w (UDestroy i) = Done w' /\
    forall k, alive w' k <-> alive w k /\ ~ owns w i k.
Proof.
  intros os b i H Hb.
  destruct (uruns_unique os _ _ ustart H (fun _ => eq_refl) ustart_unique) as (w & E & C & U).
  destruct (covers_true _ _ _ C Hb) as (p & Hi).
  destruct (destroy_unique w i p U Hi) as (w' & E' & _ & _ & Ha).
  exists w, w'. split; [assumption|]. split; [assumption|]. intros k. rewrite Ha.
  unfold owns. rewrite Hi. split; intros (X & Y); (split; [assumption|]); intros Z; apply Y.
  - now injection Z.
  - now rewrite Z.
Qed.

(** Ownership goes where the program says, and the objects stay what they are. *)
Theorem C47_transfer : forall (w : uworld V) i j p,
  u_ptr w j = Some p ->
  (u_ptr w i = None -> forall o, (o = UMove i j \/ o = UConvert i j) ->
     exists w', ustep w o = Done w' /\ u_store w' = u_store w /\
       u_ptr w' i = Some p /\ u_ptr w' j = Some None /\
       forall m, m <> i -> m <> j -> u_ptr w' m = u_ptr w m) /\
  (forall q, u_ptr w i = Some q ->
     exists w', ustep w (UAssign i j) = Done w' /\ u_store w' = u_store w /\
       u_ptr w' i = Some p /\ u_ptr w' j = Some q /\
       forall m, m <> i -> m <> j -> u_ptr w' m = u_ptr w m).
Proof.
  intros w i j p Hj. split.
  - intros Hi o Ho. assert (i <> j) as Hn by congruence.
    destruct Ho as [-> | ->]; cbn [ustep]; unfold var_free, var_get; rewrite Hi, Hj; cbn [bind];
      (eexists; split; [reflexivity|]); cbn [u_store u_ptr]; unfold var_put;
      (split; [reflexivity|]); rewrite Nat.eqb_refl; (split; [reflexivity|]);
      (assert (j =? i = false) as -> by (apply Nat.eqb_neq; congruence)); rewrite Nat.eqb_refl;
      (split; [reflexivity|]); intros m H1 H2; apply Nat.eqb_neq in H1, H2; now rewrite H1, H2.
  - intros q Hi. cbn [ustep]. unfold var_get. rewrite Hi, Hj. cbn [bind].
    eexists. split; [reflexivity|]. cbn [u_store u_ptr]. unfold var_put. split; [reflexivity|].
    rewrite !Nat.eqb_refl. destruct (i =? j) eqn:E.
    + apply Nat.eqb_eq in E. subst j. split; [congruence|]. split; [congruence|].
      intros m H1 H2. apply Nat.eqb_neq in H1. now rewrite H1.
    + split; [reflexivity|]. split; [reflexivity|].
      intros m H1 H2. apply Nat.eqb_neq in H1, H2. now rewrite H1, H2.
Qed.

End C47.

(** Not part of the claim, but possible: the constructor from a raw pointer lets
    two pointers own the same object, which is then deleted twice. *)
Theorem C47_raw_pointer_refuted :
  uruns ustart [UMake 0 7; URaw 1 0; UDestroy 0; UDestroy 1] = Fault BadLifetime.
Proof. reflexivity. Qed.

Example C47_ex : uproper (fun _ => false)
    [UMake 0 7; UMake 1 8; UMove 2 0; UAssign 1 2; UAssign 1 1; UConvert 3 1; UDestroy 1; UDestroy 2]
    (exists_after (exists_after (exists_after (exists_after (exists_after (exists_after
       (fun _ => false) 0 true) 1 true) 2 true) 3 true) 1 false) 2 false) /\
  exists w, uruns ustart
    [UMake 0 7; UMake 1 8; UMove 2 0; UAssign 1 2; UAssign 1 1; UConvert 3 1; UDestroy 1; UDestroy 2] = Done w /\
    u_store w = [Some 7; None] /\ u_ptr w 3 = Some (Some 0) /\ u_ptr w 0 = Some None.
Proof.
  split.
  - repeat (first [apply UP_nil | econstructor]; try reflexivity).
  - eexists. split; [vm_compute; reflexivity|]. repeat split.
Qed.

(** * Assumptions *)
Print Assumptions C45_programs_read_back.
Print Assumptions C45_any_operation.
Print Assumptions C45_equal.
Print Assumptions C46_programs_read_back_partial.
Print Assumptions C46_any_operation_partial.
Print Assumptions C46_equal.
Print Assumptions C46_throwing_assignment_refuted.
Print Assumptions C46_full_statement_refuted.
Print Assumptions C47_unique_owners.
Print Assumptions C47_destroyed_with_owner.
Print Assumptions C47_transfer.
Print Assumptions C47_raw_pointer_refuted.
