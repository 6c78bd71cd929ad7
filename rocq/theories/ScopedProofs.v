(** Proofs about the scoped commands (C74). *)
From Coq Require Import Ascii String NArith ZArith Bool PeanoNat Lia List.
Import ListNotations.
From Verif Require Import Util Base SerializerProofs UMap UMapSpec UMapProofs UMapMore Scoped ScopedSpec.

Local Notation length := List.length.
Local Notation past := (list Scoped.op).

Lemma run_from_app {K V} (st : umap K V -> UMap.op K V -> outcome (umap K V)) h h' : forall m,
  run_from st m (h ++ h') = bind (run_from st m h) (fun m1 => run_from st m1 h').
Proof.
  induction h as [|o h IH]; intros m; simpl; [reflexivity|].
  destruct (st m o); simpl; [apply IH|reflexivity].
Qed.

(** * Names and the ideal map *)

Local Notation istep := (ideal_step bytes_eqb).

Lemma ideal_removes (l : list bytes) n : forall f : bytes -> option target,
  fold_left istep (map Remove l) f n = if existsb (bytes_eqb n) l then None else f n.
Proof.
  induction l as [|k l IH]; intros f; simpl; [reflexivity|].
  rewrite IH. simpl. destruct (bytes_eqb n k); simpl; [|reflexivity].
  now destruct (existsb _ l).
Qed.

Lemma existsb_In n l : existsb (bytes_eqb n) l = true <-> In n l.
Proof.
  rewrite existsb_exists. split.
  - intros (x & H & E). destruct (bytes_eqb_spec n x); congruence.
  - intros H. exists n. split; [exact H|apply bytes_eqb_refl].
Qed.

Lemma existsb_not_In n l : existsb (bytes_eqb n) l = false <-> ~ In n l.
Proof. rewrite <- existsb_In. destruct (existsb _ _); intuition congruence. Qed.

Lemma ideal_adds (o : nat) (cmds : list (bytes * nat)) n : forall f : bytes -> option target,
  (exists l r x, cmds = l ++ (n, x) :: r /\ ~ In n (map fst r) /\
     fold_left istep (map (fun c => Add (fst c) (Member o (snd c))) cmds) f n = Some (Member o x)) \/
  (~ In n (map fst cmds) /\
     fold_left istep (map (fun c => Add (fst c) (Member o (snd c))) cmds) f n = f n).
Proof.
  induction cmds as [|[k y] cmds IH]; intros f; cbn [map fold_left fst snd]; [now right; split|].
  destruct (IH (istep f (Add k (Member o y)))) as [(l & r & x & -> & N & E)|[N E]].
  - left. exists ((k, y) :: l), r, x. now repeat split.
  - rewrite E. simpl. destruct (bytes_eqb_spec n k) as [<-|Hne].
    + left. exists [], cmds, y. now repeat split.
    + right. split; [|reflexivity]. intros [<-|H]; congruence.
Qed.

Lemma last_split_unique {A} (l l' r r' : list (bytes * A)) n x x' :
  l ++ (n, x) :: r = l' ++ (n, x') :: r' -> ~ In n (map fst r) -> ~ In n (map fst r') -> x = x'.
Proof.
  revert l'. induction l as [|a l IH]; intros [|b l'] E N N'; simpl in E.
  - congruence.
  - injection E as _ ->. exfalso. apply N. rewrite map_app. simpl. apply in_or_app. right. now left.
  - injection E as _ <-. exfalso. apply N'. rewrite map_app. simpl. apply in_or_app. right. now left.
  - injection E as _ E. now apply (IH l').
Qed.

(** [serves] is the ideal map after the registry's history. *)
Lemma serves_iff h n t : serves h n t <-> ideal bytes_eqb (registry_history h) n = Some t.
Proof.
  revert t. induction h as [|x h IH]; intros t; [easy|].
  cbn [serves registry_history]. unfold ideal. rewrite fold_left_app.
  change (fold_left istep (registry_history h) (fun _ => None))
    with (ideal bytes_eqb (registry_history h)).
  set (f := ideal bytes_eqb (registry_history h)) in *.
  destruct x as [cmds|o m y|o|o p|o|m a|m| |m]; cbn [gives takes_away events].
  - destruct (ideal_adds (created h) cmds n f) as [(l & r & x & E & N & ->)|[N ->]].
    + split.
      * intros [(l' & r' & x' & E' & N' & ->)|[_ H]].
        { f_equal. f_equal. eapply last_split_unique; [rewrite <- E; exact E'| |]; assumption. }
        { destruct H. rewrite E, map_app. simpl. apply in_or_app. right. now left. }
      * intros [= <-]. left. eauto 6.
    + rewrite <- IH. split.
      * intros [(l & r & x & -> & _)|[H _]]; [|exact H].
        destruct N. rewrite map_app. simpl. apply in_or_app. right. now left.
      * intros H. now right.
  - simpl. destruct (bytes_eqb_spec n m) as [<-|Ne].
    + split; [intros [[_ ->]|[_ H]]; [reflexivity|now destruct H]|intros [= <-]; now left].
    + rewrite <- IH. split; [intros [[? _]|[H _]]; congruence|]. intros H. right. split; congruence.
  - simpl. rewrite <- IH. intuition.
  - rewrite ideal_removes. destruct (existsb _ _) eqn:E.
    + apply existsb_In in E. split; [intros [[]|[_ H]]; now destruct H|discriminate].
    + apply existsb_not_In in E. rewrite <- IH. intuition.
  - rewrite ideal_removes. destruct (existsb _ _) eqn:E.
    + apply existsb_In in E. split; [intros [[]|[_ H]]; now destruct H|discriminate].
    + apply existsb_not_In in E. rewrite <- IH. intuition.
  - simpl. destruct (bytes_eqb_spec n m) as [<-|Ne].
    + split; [intros [[_ ->]|[_ H]]; [reflexivity|now destruct H]|intros [= <-]; now left].
    + rewrite <- IH. split; [intros [[? _]|[H _]]; congruence|]. intros H. right. split; congruence.
  - simpl. destruct (bytes_eqb_spec n m) as [<-|Ne].
    + split; [intros [[]|[_ H]]; now destruct H|discriminate].
    + rewrite <- IH. split; [intros [[]|[H _]]; exact H|]. intros H. right. split; congruence.
  - simpl. split; [intros [[]|[_ H]]; now destruct H|discriminate].
  - simpl. rewrite <- IH. intuition.
Qed.

Lemma serves_unique h n t t' : serves h n t -> serves h n t' -> t = t'.
Proof. rewrite !serves_iff. congruence. Qed.

(** * The model follows the history *)

Lemma nth_set_same {A} (l : list A) i x : i < length l -> nth_error (set_nth l i x) i = Some x.
Proof. revert i. induction l as [|a l IH]; intros [|i] H; simpl in *; try lia; [easy|apply IH; lia]. Qed.
Lemma nth_set_other {A} (l : list A) i j x : j <> i -> nth_error (set_nth l i x) j = nth_error l j.
Proof. revert i j. induction l as [|a l IH]; intros [|i] [|j] H; simpl; try easy. apply IH. lia. Qed.
Lemma len_set {A} (l : list A) i x : length (set_nth l i x) = length l.
Proof. revert i. induction l as [|a l IH]; intros [|i]; simpl; [easy..|]. now rewrite IH. Qed.
Lemma set_set {A} (l : list A) i x y : set_nth (set_nth l i x) i y = set_nth l i y.
Proof. revert i. induction l as [|a l IH]; intros [|i]; simpl; [easy..|]. now rewrite IH. Qed.
Lemma set_same {A} (l : list A) i x : nth_error l i = Some x -> set_nth l i x = l.
Proof. revert i. induction l as [|a l IH]; intros [|i] H; simpl in *; try easy; [congruence|]. now rewrite IH. Qed.

Section Follow.
Variable sg : bool.
Variable er : umap bytes target -> bytes -> outcome (umap bytes target).

(** A step of the registry with this erase. *)
Definition rstep (m : umap bytes target) (o : UMap.op bytes target) : outcome (umap bytes target) :=
  match o with
  | Add k v => insertOrAssign bytes_eqb (hash_view sg) m k v
  | Remove k => er m k
  | Clear => Done (clear m)
  end.
Definition rrun (h : list (UMap.op bytes target)) := run_from rstep empty_map h.

(** Histories on which the registry is the ideal map. *)
Variable okh : list (UMap.op bytes target) -> Prop.
Hypothesis okh_prefix : forall a b, okh (a ++ b) -> okh a.
Hypothesis okh_faithful : forall h, okh h ->
  exists m, rrun h = Done m /\ faithful bytes_eqb (hash_view sg) m h.

Lemma names_of_done w o ns : names_of w o = Done ns <-> nth_error (w_objects w) o = Some (Some ns).
Proof.
  unfold names_of. destruct (nth_error _ _) as [[x|]|]; split; intros H; try discriminate; congruence.
Qed.

Lemma scoped_add_all_run o cmds : forall m m' objs ns,
  nth_error objs o = Some (Some ns) ->
  run_from rstep m (map (fun c => Add (fst c) (Member o (snd c))) cmds) = Done m' ->
  scoped_add_all sg (World (Some m) objs) o cmds =
  Done (World (Some m') (set_nth objs o (Some (ns ++ map fst cmds)))).
Proof.
  induction cmds as [|[n f] cmds IH]; intros m m' objs ns Ho E.
  - simpl in *. injection E as <-. rewrite app_nil_r. now rewrite set_same.
  - simpl in E. destruct (insertOrAssign _ _ m n _) as [m1|] eqn:E1; simpl in E; [|discriminate].
    cbn [scoped_add_all]. unfold scoped_add.
    rewrite (proj2 (names_of_done (World (Some m) objs) o ns) Ho). cbn [bind].
    unfold global_add. cbn [bindings w_commands bind]. rewrite E1. cbn [bind].
    unfold set_bindings, set_names. cbn [w_objects w_commands].
    assert (L : o < length objs) by (apply nth_error_Some; congruence).
    rewrite (IH m1 m' (set_nth objs o (Some (ns ++ [n]))) (ns ++ [n]));
      [|now apply nth_set_same|exact E].
    rewrite set_set. cbn [map fst]. now rewrite <- app_assoc.
Qed.

Lemma remove_all_run ns : forall m m' objs,
  run_from rstep m (map Remove ns) = Done m' ->
  remove_all er (World (Some m) objs) ns = Done (World (Some m') objs).
Proof.
  induction ns as [|n ns IH]; intros m m' objs E; simpl in E.
  - now injection E as <-.
  - destruct (er m n) as [m1|] eqn:E1; simpl in E; [|discriminate].
    cbn [remove_all]. unfold global_remove. cbn [bindings w_commands bind]. rewrite E1.
    cbn [bind]. unfold set_bindings. cbn [w_objects]. now apply IH.
Qed.

(** [w] is the state after the operations [h]. *)
Definition after_ops (h : past) (w : world) : Prop :=
  (exists m, w_commands w = Some m /\ rrun (registry_history h) = Done m) /\
  length (w_objects w) = created h /\
  (forall o, alive h o -> nth_error (w_objects w) o = Some (Some (listed h o))) /\
  (forall o, In (ODestroy o) h -> nth_error (w_objects w) o = Some None).

Lemma after_start : after_ops [] start.
Proof.
  split; [|split; [reflexivity|split]].
  - exists empty_map. now split.
  - intros o [H _]. simpl in H. lia.
  - intros o [].
Qed.

Lemma history_run h x m : rrun (registry_history h) = Done m -> okh (registry_history (x :: h)) ->
  exists m', run_from rstep m (events h x) = Done m' /\ rrun (registry_history (x :: h)) = Done m'.
Proof.
  intros E O. destruct (okh_faithful _ O) as (m' & E' & _). exists m'. split; [|exact E'].
  unfold rrun in *. cbn [registry_history] in E'. rewrite run_from_app, E in E'. exact E'.
Qed.

Lemma scoped_clear_run h w o m m' : alive h o -> after_ops h w -> w_commands w = Some m ->
  run_from rstep m (map Remove (listed h o)) = Done m' ->
  scoped_clear er w o = Done (World (Some m') (set_nth (w_objects w) o (Some []))).
Proof.
  intros A (_ & _ & Ho & _) Em E. unfold scoped_clear.
  rewrite (proj2 (names_of_done w o _) (Ho o A)). cbn [bind].
  destruct w as [c objs]. simpl in Em. subst c. rewrite (remove_all_run _ _ _ _ E). reflexivity.
Qed.

Lemma step_quiet h w x : after_ops h w -> sensible h x -> okh (registry_history (x :: h)) ->
  (forall n, x <> OExecute n) ->
  exists w', step sg er w x = Done (w', []) /\ after_ops (x :: h) w'.
Proof.
  intros Hw Se O Nx. pose proof Hw as ((m & Em & Er) & L & Ho & Hd).
  destruct (history_run h x m Er O) as (m' & E & E').
  destruct x as [cmds|o n f|p|o p|o|n a|n| |n]; cbn [step sensible] in *.
  - (* OCreate *)
    unfold create. rewrite Em.
    rewrite (scoped_add_all_run (length (w_objects w)) cmds m m' _ []);
      [|rewrite nth_error_app2, Nat.sub_diag by lia; reflexivity|now rewrite L].
    cbn [quiet bind]. eexists. split; [reflexivity|]. split; [exists m'; now split|].
    cbn [w_objects created]. rewrite len_set, app_length, L. cbn [length]. split; [lia|].
    split.
    + intros o [Lo Nd]. cbn [created] in Lo. cbn [listed app].
      destruct (Nat.eqb_spec o (created h)) as [->|Ne].
      * apply nth_set_same. rewrite app_length, L. simpl. lia.
      * rewrite nth_set_other by lia. rewrite nth_error_app1 by lia. apply Ho.
        split; [lia|]. intros I. apply Nd. now right.
    + intros o [?|I]; [discriminate|].
      assert (o < length (w_objects w)) by (apply nth_error_Some; rewrite (Hd o I); discriminate).
      rewrite nth_set_other by lia. rewrite nth_error_app1 by lia. now apply Hd.
  - (* OAdd *)
    unfold scoped_add. rewrite (proj2 (names_of_done w o _) (Ho o Se)). cbn [bind].
    unfold global_add, bindings. rewrite Em. cbn [bind]. cbn [events run_from rstep] in E.
    destruct (insertOrAssign _ _ m n _) as [m1|]; cbn [bind] in E; [|discriminate].
    injection E as ->. cbn [bind quiet]. eexists. split; [reflexivity|].
    split; [exists m'; now split|]. unfold set_names, set_bindings. cbn [w_objects created].
    rewrite len_set. split; [exact L|].
    assert (Lo : o < length (w_objects w)) by (rewrite L; apply Se).
    split.
    + intros p [Lp Np]. cbn [created] in Lp. cbn [listed]. destruct (Nat.eqb_spec p o) as [->|Ne].
      * now apply nth_set_same.
      * rewrite nth_set_other by exact Ne. apply Ho. split; [exact Lp|]. intros I. apply Np. now right.
    + intros p [?|I]; [discriminate|]. rewrite nth_set_other; [now apply Hd|].
      intros ->. now apply Se.
  - (* OMoveConstruct *)
    cbn [events run_from] in E. injection E as <-.
    unfold move_construct, scoped_clear.
    rewrite (proj2 (names_of_done (World (w_commands w) (w_objects w ++ [Some []])) (length (w_objects w)) []))
      by (cbn [w_objects]; rewrite nth_error_app2, Nat.sub_diag by lia; reflexivity).
    cbn [bind remove_all]. unfold take_names, set_names. cbn [w_objects w_commands].
    rewrite (set_same (w_objects w ++ [Some []]))
      by (rewrite nth_error_app2, Nat.sub_diag by lia; reflexivity).
    assert (Lp : p < length (w_objects w)) by (rewrite L; apply Se).
    rewrite (proj2 (names_of_done (World (w_commands w) (w_objects w ++ [Some []])) p (listed h p)))
      by (cbn [w_objects]; rewrite nth_error_app1 by lia; now apply Ho).
    cbn [bind].
    rewrite (proj2 (names_of_done (World (w_commands w) (w_objects w ++ [Some []])) (length (w_objects w)) []))
      by (cbn [w_objects]; rewrite nth_error_app2, Nat.sub_diag by lia; reflexivity).
    cbn [bind quiet]. eexists. split; [reflexivity|].
    split; [exists m; now split|]. cbn [w_objects created]. rewrite !len_set, app_length, L.
    cbn [length]. split; [lia|]. split.
    + intros o [Lo No]. cbn [created] in Lo. cbn [listed]. destruct (Nat.eqb_spec o (created h)) as [->|Ne].
      * apply nth_set_same. rewrite len_set, app_length, L. simpl. lia.
      * rewrite nth_set_other by lia. destruct (Nat.eqb_spec o p) as [->|Np].
        { apply nth_set_same. rewrite app_length. lia. }
        { rewrite nth_set_other by exact Np. rewrite nth_error_app1 by lia. apply Ho.
          split; [lia|]. intros I. apply No. now right. }
    + intros o [?|I]; [discriminate|].
      assert (o < length (w_objects w)) by (apply nth_error_Some; rewrite (Hd o I); discriminate).
      rewrite nth_set_other by lia. rewrite nth_set_other by (intros ->; now apply Se).
      rewrite nth_error_app1 by lia. now apply Hd.
  - (* OMoveAssign *)
    destruct Se as [So Sp]. cbn [events] in E.
    unfold move_assign. rewrite (scoped_clear_run h w o m m' So Hw Em E). cbn [bind].
    assert (Lo : o < length (w_objects w)) by (rewrite L; apply So).
    assert (Lp : p < length (w_objects w)) by (rewrite L; apply Sp).
    unfold take_names.
    rewrite (proj2 (names_of_done (World (Some m') (set_nth (w_objects w) o (Some []))) p
               (if o =? p then [] else listed h p))).
    2:{ cbn [w_objects]. destruct (Nat.eqb_spec o p) as [<-|Ne]; [now apply nth_set_same|].
        rewrite nth_set_other by lia. now apply Ho. }
    cbn [bind].
    rewrite (proj2 (names_of_done (World (Some m') (set_nth (w_objects w) o (Some []))) o []))
      by (cbn [w_objects]; now apply nth_set_same).
    cbn [bind quiet]. eexists. split; [reflexivity|].
    split; [exists m'; now split|]. unfold set_names. cbn [w_objects w_commands created].
    rewrite !len_set. split; [exact L|]. split.
    + intros q [Lq Nq]. cbn [created] in Lq. cbn [listed]. destruct (Nat.eqb_spec q o) as [->|Ne].
      * apply nth_set_same. now rewrite !len_set.
      * rewrite nth_set_other by exact Ne. destruct (Nat.eqb_spec q p) as [->|Np].
        { apply nth_set_same. now rewrite len_set. }
        { rewrite !nth_set_other by assumption. apply Ho.
          split; [exact Lq|]. intros I. apply Nq. now right. }
    + intros q [?|I]; [discriminate|].
      rewrite !nth_set_other; [now apply Hd| | |]; intros ->; [now apply So|now apply Sp|now apply So].
  - (* ODestroy *)
    cbn [events] in E. unfold destroy. rewrite (scoped_clear_run h w o m m' Se Hw Em E).
    cbn [bind quiet]. eexists. split; [reflexivity|].
    assert (Lo : o < length (w_objects w)) by (rewrite L; apply Se).
    split; [exists m'; now split|]. unfold set_names. cbn [w_objects w_commands created].
    rewrite !len_set. split; [exact L|]. rewrite set_set. split.
    + intros q [Lq Nq]. cbn [created] in Lq. cbn [listed]. destruct (Nat.eqb_spec q o) as [->|Ne].
      * destruct Nq. now left.
      * rewrite nth_set_other by exact Ne. apply Ho.
        split; [exact Lq|]. intros I. apply Nq. now right.
    + intros q I. destruct (Nat.eq_dec q o) as [->|Ne]; [now apply nth_set_same|].
      destruct I as [I|I]; [congruence|]. rewrite nth_set_other by exact Ne. now apply Hd.
  - (* OBind *)
    unfold global_add, bindings. rewrite Em. cbn [bind]. cbn [events run_from rstep] in E.
    destruct (insertOrAssign _ _ m n _) as [m1|]; cbn [bind] in E; [|discriminate].
    injection E as ->. cbn [bind quiet]. eexists. split; [reflexivity|].
    split; [exists m'; now split|]. split; [exact L|]. split.
    + intros q [Lq Nq]. apply Ho. split; [exact Lq|]. intros I. apply Nq. now right.
    + intros q [?|I]; [discriminate|]. now apply Hd.
  - (* OUnbind *)
    unfold global_remove, bindings. rewrite Em. cbn [bind]. cbn [events run_from rstep] in E.
    destruct (er m n) as [m1|]; cbn [bind] in E; [|discriminate].
    injection E as ->. cbn [bind quiet]. eexists. split; [reflexivity|].
    split; [exists m'; now split|]. split; [exact L|]. split.
    + intros q [Lq Nq]. apply Ho. split; [exact Lq|]. intros I. apply Nq. now right.
    + intros q [?|I]; [discriminate|]. now apply Hd.
  - (* OClear *)
    unfold bindings. rewrite Em. cbn [bind]. cbn [events run_from rstep bind] in E.
    injection E as <-. cbn [quiet bind]. eexists. split; [reflexivity|].
    split; [eexists; split; [reflexivity|exact E']|]. split; [exact L|]. split.
    + intros q [Lq Nq]. apply Ho. split; [exact Lq|]. intros I. apply Nq. now right.
    + intros q [?|I]; [discriminate|]. now apply Hd.
  - now destruct (Nx n).
Qed.

Lemma alive_dec h o : {alive h o} + {~ alive h o}.
Proof.
  unfold alive. destruct (lt_dec o (created h)) as [L|L]; [|now right].
  destruct (in_dec (fun a b : Scoped.op => ltac:(repeat decide equality)) (ODestroy o) h) as [I|I].
  - right. tauto.
  - left. tauto.
Qed.

(** Every operation of [h] was sensible when it was done. *)
Definition sensible_past (h : past) : Prop := forall l x r, h = l ++ x :: r -> sensible r x.

Lemma sensible_past_rev xs : sensible_from [] xs -> sensible_past (rev xs).
Proof.
  intros Se.
  enough (G : forall xs p, sensible_past p -> sensible_from p xs -> sensible_past (rev xs ++ p)).
  { rewrite <- (app_nil_r (rev xs)). apply G; [|exact Se]. intros [|y l] x r E; discriminate. }
  clear. induction xs as [|y xs IH]; intros p Hp Sx; [exact Hp|].
  destruct Sx as [Sy Sx]. cbn [rev]. rewrite <- app_assoc. apply (IH (y :: p)); [|exact Sx].
  intros [|z l'] x' r' E'; simpl in E'; injection E' as <- E'; [now subst|now apply (Hp l')].
Qed.

Lemma sensible_past_inv x h : sensible_past (x :: h) -> sensible h x /\ sensible_past h.
Proof.
  intros H. split; [now apply (H [])|]. intros l y r E. apply (H (x :: l)). now rewrite E.
Qed.

(** The objects that handlers refer to have been constructed. *)
Lemma served_created h : sensible_past h -> forall n o f,
  serves h n (Member o f) -> o < created h.
Proof.
  induction h as [|x h IH]; intros Hs n o f; [intros []|].
  apply sensible_past_inv in Hs as [Sx Hs]. cbn [serves]. intros [G|[G _]].
  - destruct x; cbn [gives sensible created] in *; try easy.
    + destruct G as (? & ? & ? & _ & _ & E). injection E as -> _. lia.
    + destruct G as [_ E]. injection E as -> _. apply Sx.
  - apply IH in G; [|exact Hs]. destruct x; cbn [created]; lia.
Qed.

Lemma destroyed_created h o : sensible_past h -> In (ODestroy o) h -> o < created h.
Proof.
  induction h as [|x h IH]; intros Hs; [intros []|].
  apply sensible_past_inv in Hs as [Sx Hs]. intros [->|I].
  - apply Sx.
  - specialize (IH Hs I). destruct x; cbn [created]; lia.
Qed.

Lemma alive_keep h x o : alive h o -> x <> ODestroy o -> alive (x :: h) o.
Proof.
  intros [L N] Ne. split; [destruct x; cbn [created]; lia|]. intros [E|I]; [now apply Ne|now apply N].
Qed.

Lemma alive_new h x : sensible_past h ->
  match x with OCreate _ | OMoveConstruct _ => alive (x :: h) (created h) | _ => True end.
Proof.
  intros Hs.
  assert (N : ~ In (ODestroy (created h)) h) by (intros I; apply (destroyed_created h _ Hs) in I; lia).
  destruct x; try exact I; (split; [cbn [created]; lia|]; intros [E|H]; [discriminate|now apply N]).
Qed.

(** Some existing object answers for every command that refers to an object. *)
Lemma served_listed h : sensible_past h -> forall n o f,
  serves h n (Member o f) -> exists p, alive h p /\ In n (listed h p).
Proof.
  induction h as [|x h IH]; intros Hs n o f; [intros []|].
  apply sensible_past_inv in Hs as [Sx Hs]. cbn [serves]. intros [G|[G K]].
  - destruct x as [cmds|q m y|q|q p|q|m a|m| |m]; cbn [gives] in G; try easy.
    + destruct G as (l & r & z & -> & _ & _). exists (created h).
      split; [now apply (alive_new h (OCreate (l ++ (n, z) :: r)))|]. cbn [listed].
      rewrite Nat.eqb_refl, map_app. apply in_or_app. right. now left.
    + destruct G as [<- _]. exists q. split; [apply alive_keep; [exact Sx|discriminate]|].
      cbn [listed]. rewrite Nat.eqb_refl. apply in_or_app. right. now left.
  - destruct (IH Hs n o f G) as (p & Ap & Ip).
    destruct x as [cmds|q m y|q|a b|q|m a|m| |m]; cbn [takes_away] in K.
    + exists p. split; [apply alive_keep; [exact Ap|discriminate]|]. cbn [listed].
      destruct (Nat.eqb_spec p (created h)) as [->|_]; [destruct Ap; lia|exact Ip].
    + exists p. split; [apply alive_keep; [exact Ap|discriminate]|]. cbn [listed].
      destruct (p =? q); [apply in_or_app; now left|exact Ip].
    + destruct (Nat.eq_dec p q) as [->|Ne].
      * exists (created h). split; [now apply (alive_new h (OMoveConstruct q))|].
        cbn [listed]. now rewrite Nat.eqb_refl.
      * exists p. split; [apply alive_keep; [exact Ap|discriminate]|]. cbn [listed].
        destruct (Nat.eqb_spec p (created h)) as [->|_]; [destruct Ap; lia|].
        destruct (Nat.eqb_spec p q); [congruence|exact Ip].
    + destruct (Nat.eq_dec p a) as [->|Na]; [contradiction|].
      destruct (Nat.eq_dec p b) as [->|Nb].
      * exists a. split; [apply alive_keep; [apply Sx|discriminate]|]. cbn [listed].
        rewrite Nat.eqb_refl. destruct (Nat.eqb_spec a b); [congruence|exact Ip].
      * exists p. split; [apply alive_keep; [exact Ap|discriminate]|]. cbn [listed].
        destruct (Nat.eqb_spec p a), (Nat.eqb_spec p b); congruence || exact Ip.
    + destruct (Nat.eq_dec p q) as [->|Ne]; [contradiction|].
      exists p. split; [apply alive_keep; [exact Ap|congruence]|]. cbn [listed].
      destruct (Nat.eqb_spec p q); [congruence|exact Ip].
    + exists p. split; [apply alive_keep; [exact Ap|discriminate]|exact Ip].
    + exists p. split; [apply alive_keep; [exact Ap|discriminate]|exact Ip].
    + exists p. split; [apply alive_keep; [exact Ap|discriminate]|exact Ip].
    + exists p. split; [apply alive_keep; [exact Ap|discriminate]|exact Ip].
Qed.

(** Without moves it is the object the command refers to. *)
Lemma served_own h : sensible_past h -> (forall x, In x h -> moves x = false) -> forall n o f,
  serves h n (Member o f) -> alive h o /\ In n (listed h o).
Proof.
  induction h as [|x h IH]; intros Hs Hm n o f; [intros []|].
  apply sensible_past_inv in Hs as [Sx Hs].
  assert (Mx := Hm x (or_introl eq_refl)).
  assert (Hm' : forall y, In y h -> moves y = false) by (intros y Iy; apply Hm; now right).
  cbn [serves]. intros [G|[G K]].
  - destruct x as [cmds|q m y|q|q p|q|m a|m| |m]; cbn [gives] in G; try easy.
    + destruct G as (l & r & z & -> & _ & E). injection E as -> <-.
      split; [now apply (alive_new h (OCreate (l ++ (n, f) :: r)))|]. cbn [listed].
      rewrite Nat.eqb_refl, map_app. apply in_or_app. right. now left.
    + destruct G as [<- E]. injection E as -> _.
      split; [apply alive_keep; [exact Sx|discriminate]|].
      cbn [listed]. rewrite Nat.eqb_refl. apply in_or_app. right. now left.
  - destruct (IH Hs Hm' n o f G) as [Ap Ip].
    destruct x as [cmds|q m y|q|a b|q|m a|m| |m]; cbn [takes_away] in K; try discriminate Mx.
    + split; [apply alive_keep; [exact Ap|discriminate]|]. cbn [listed].
      destruct (Nat.eqb_spec o (created h)) as [->|_]; [destruct Ap; lia|exact Ip].
    + split; [apply alive_keep; [exact Ap|discriminate]|]. cbn [listed].
      destruct (o =? q); [apply in_or_app; now left|exact Ip].
    + destruct (Nat.eq_dec o q) as [->|Ne]; [contradiction|].
      split; [apply alive_keep; [exact Ap|congruence]|]. cbn [listed].
      destruct (Nat.eqb_spec o q); [congruence|exact Ip].
    + split; [apply alive_keep; [exact Ap|discriminate]|exact Ip].
    + split; [apply alive_keep; [exact Ap|discriminate]|exact Ip].
    + split; [apply alive_keep; [exact Ap|discriminate]|exact Ip].
    + split; [apply alive_keep; [exact Ap|discriminate]|exact Ip].
Qed.

Lemma no_moves_no_dangling xs : sensible_from [] xs -> no_moves xs -> ~ dangling_from [] xs.
Proof.
  intros Se Hm (l & n & r & o & f & -> & G & N). rewrite app_nil_r in *.
  apply N. apply (served_own (rev l)) with n f; [| |exact G].
  - apply sensible_past_rev.
    assert (A : forall a b h, sensible_from h (a ++ b) -> sensible_from h a).
    { clear. induction a as [|x a IH]; intros b h; [easy|]. intros [A B]. split; [exact A|now apply (IH b)]. }
    now apply (A l (OExecute n :: r)).
  - intros x I. apply Hm. apply in_or_app. left. now apply in_rev.
Qed.

Lemma execute_spec h w n : after_ops h w -> okh (registry_history h) ->
  (forall o f, serves h n (Member o f) -> o < created h) ->
  (exists a, execute sg w n = Done a /\ right_answer h n a /\
     forall o f, serves h n (Member o f) -> alive h o) \/
  (execute sg w n = Fault UseAfterFree /\
     exists o f, serves h n (Member o f) /\ ~ alive h o).
Proof.
  intros ((m & Em & Er) & L & Ho & Hd) O Hc. unfold execute, bindings. rewrite Em. cbn [bind].
  destruct (okh_faithful _ O) as (m' & Er' & Fa). rewrite Er in Er'. injection Er' as <-.
  rewrite (Fa n). cbn [bind].
  destruct (ideal bytes_eqb (registry_history h) n) as [[a|o f]|] eqn:Ei.
  - left. eexists. split; [reflexivity|]. split; [now apply serves_iff|].
    intros o f S. apply serves_iff in S. congruence.
  - assert (Sv := proj2 (serves_iff h n _) Ei).
    destruct (alive_dec h o) as [A|A].
    + left. rewrite (proj2 (names_of_done w o _) (Ho o A)). cbn [bind].
      eexists. split; [reflexivity|]. split; [exact Sv|]. intros o' f' Sv'.
      now injection (serves_unique _ _ _ _ Sv Sv') as <- _.
    + right. split; [|eauto]. unfold names_of. rewrite (Hd o); [reflexivity|].
      assert (Lo := Hc o f Sv).
      destruct (in_dec (fun a b : Scoped.op => ltac:(repeat decide equality)) (ODestroy o) h) as [I|I]; [exact I|].
      destruct A. now split.
  - left. eexists. split; [reflexivity|]. split.
    + intros t Sv. apply serves_iff in Sv. congruence.
    + intros o f Sv. apply serves_iff in Sv. congruence.
Qed.

Lemma sensible_app xs ys : forall h,
  sensible_from h (xs ++ ys) <-> sensible_from h xs /\ sensible_from (rev xs ++ h) ys.
Proof.
  induction xs as [|x xs IH]; intros h; simpl; [tauto|].
  rewrite IH, <- app_assoc. simpl. tauto.
Qed.

Lemma history_prefix_ok xs ys h : okh (registry_history (rev (xs ++ ys) ++ h)) ->
  okh (registry_history (rev xs ++ h)).
Proof.
  rewrite rev_app_distr, <- app_assoc. generalize (rev xs ++ h). intros p.
  induction (rev ys) as [|y l IH]; [auto|]. cbn [app registry_history]. intros H.
  apply okh_prefix in H. auto.
Qed.

(** Every session either answers as specified or, exactly if it executes a command whose
    object is gone, uses a destroyed object. *)
Lemma session_spec xs : forall past h w, h = rev past -> sensible_from [] past ->
  after_ops h w -> sensible_from h xs -> okh (registry_history (rev xs ++ h)) ->
  (exists w' rs, session sg er w xs = Done (w', rs) /\ after_ops (rev xs ++ h) w' /\
     answered h xs rs /\ ~ dangling_from h xs) \/
  (session sg er w xs = Fault UseAfterFree /\ dangling_from h xs).
Proof.
  induction xs as [|x xs IH]; intros past h w Eh Sp Hw Se O.
  - left. exists w, []. repeat split; try assumption; [apply Hw..|constructor|].
    intros ([|y0 l0] & n & r & o & f & E & _); discriminate.
  - destruct Se as [Sx Sxs]. cbn [session].
    assert (O1 : okh (registry_history (x :: h))) by (apply (history_prefix_ok [x] xs h O)).
    assert (Oh : okh (registry_history h)) by (cbn [registry_history] in O1; eauto).
    assert (Sp' : sensible_from [] (past ++ [x])).
    { apply sensible_app. rewrite app_nil_r, <- Eh. now repeat split. }
    assert (Eh' : x :: h = rev (past ++ [x])) by (rewrite rev_app_distr; simpl; congruence).
    assert (O' : okh (registry_history (rev xs ++ x :: h)))
      by (cbn [rev] in O; rewrite <- app_assoc in O; exact O).
    assert (Dng : forall y, dangling_from (y :: h) xs -> dangling_from h (y :: xs)).
    { intros y (l & n & r & o & f & -> & G & N). exists (y :: l), n, r, o, f.
      cbn [rev]. rewrite <- app_assoc. now repeat split. }
    destruct (match x with OExecute n => inl n | _ => inr tt end) as [n|[]] eqn:Kx.
    + assert (x = OExecute n) as -> by (destruct x; congruence). cbn [step].
      destruct (execute_spec h w n Hw Oh) as [(a & -> & R & Al)|[-> (o & f & G & N)]].
      { rewrite Eh. apply served_created. now apply sensible_past_rev. }
      * cbn [bind fst snd].
        assert (Hw' : after_ops (OExecute n :: h) w).
        { destruct Hw as ((m & Em & Er) & L & Ho & Hd). split; [|split; [exact L|split]].
          - exists m. split; [exact Em|]. cbn [registry_history events]. now rewrite app_nil_r.
          - intros o [Lo No]. apply Ho. split; [exact Lo|]. intros I. apply No. now right.
          - intros o [?|I]; [discriminate|]. now apply Hd. }
        destruct (IH _ _ w Eh' Sp' Hw' Sxs O') as [(w' & rs & E & Hw2 & An & Nd)|[E D]]; rewrite E; cbn [bind].
        { left. exists w', (a :: rs). split; [reflexivity|].
          split; [cbn [rev]; rewrite <- app_assoc; exact Hw2|]. split; [now constructor|].
          intros (l & n' & r & o & f & El & G & N). destruct l as [|y l].
          - simpl in El, G, N. injection El as <- _. now apply N, (Al o f).
          - simpl in El. injection El as <- El. apply Nd. exists l, n', r, o, f.
            cbn [rev] in G, N. rewrite <- app_assoc in G, N. now repeat split. }
        { right. split; [reflexivity|]. now apply Dng. }
      * right. cbn [bind]. split; [reflexivity|]. exists [], n, xs, o, f. now repeat split.
    + assert (Nx : forall n, x <> OExecute n) by (intros n ->; discriminate).
      destruct (step_quiet h w x Hw Sx O1 Nx) as (w1 & -> & Hw1). cbn [bind fst snd app].
      destruct (IH _ _ w1 Eh' Sp' Hw1 Sxs O') as [(w' & rs & E & Hw2 & An & Nd)|[E D]]; rewrite E; cbn [bind].
      * left. exists w', rs. split; [reflexivity|].
        split; [cbn [rev]; rewrite <- app_assoc; exact Hw2|]. split; [now constructor|].
        intros (l & n' & r & o & f & El & G & N). destruct l as [|y l].
        { simpl in El. injection El as Ex _. now apply (Nx n'). }
        { simpl in El. injection El as <- El. apply Nd. exists l, n', r, o, f.
          cbn [rev] in G, N. rewrite <- app_assoc in G, N. now repeat split. }
      * right. split; [reflexivity|]. now apply Dng.
Qed.

Lemma session_from_start xs : sensible_from [] xs -> okh (registry_history (rev xs)) ->
  (exists w rs, session sg er start xs = Done (w, rs) /\ after_ops (rev xs) w /\
     answered [] xs rs /\ ~ dangling_from [] xs) \/
  (session sg er start xs = Fault UseAfterFree /\ dangling_from [] xs).
Proof.
  intros Se O.
  destruct (session_spec xs [] [] start eq_refl I after_start Se) as [H|H];
    [now rewrite app_nil_r|rewrite app_nil_r in H; now left|now right].
Qed.
End Follow.

(** * The two kinds of erase *)

Lemma harmless_prefix sg (a b : list (UMap.op bytes target)) :
  harmless_history bytes_eqb (hash_view sg) (a ++ b) -> harmless_history bytes_eqb (hash_view sg) a.
Proof.
  unfold harmless_history. generalize (shape0 (K := bytes)).
  induction a as [|x a IH]; intros s; [easy|]. intros [A B]. split; [exact A|now apply IH].
Qed.

Lemma lib_run sg h : rrun sg (lib_erase sg) h = run bytes_eqb (hash_view sg) h.
Proof.
  unfold rrun, run. generalize (empty_map (K := bytes) (V := target)).
  induction h as [|x h IH]; intros m; [reflexivity|]. cbn [run_from].
  replace (rstep sg (lib_erase sg) m x) with (UMap.step bytes_eqb (hash_view sg) m x) by (now destruct x).
  destruct (UMap.step _ _ m x); simpl; [apply IH|reflexivity].
Qed.

Lemma lib_faithful sg h : harmless_history bytes_eqb (hash_view sg) h ->
  exists m, rrun sg (lib_erase sg) h = Done m /\ faithful bytes_eqb (hash_view sg) m h.
Proof. rewrite lib_run. apply harmless_faithful, bytes_eqb_spec. Qed.

Lemma fixed_run sg h : rrun sg (fixed_erase sg) h = run_fixed bytes_eqb (hash_view sg) h.
Proof.
  unfold rrun, run_fixed. generalize (empty_map (K := bytes) (V := target)).
  induction h as [|x h IH]; intros m; [reflexivity|]. cbn [run_from].
  replace (rstep sg (fixed_erase sg) m x) with (step_fixed bytes_eqb (hash_view sg) m x) by (now destruct x).
  destruct (step_fixed _ _ m x); simpl; [apply IH|reflexivity].
Qed.

Lemma fixed_faithful_scoped sg h : True ->
  exists m, rrun sg (fixed_erase sg) h = Done m /\ faithful bytes_eqb (hash_view sg) m h.
Proof.
  intros _. rewrite fixed_run.
  destruct (fixed_faithful bytes_eqb (hash_view sg) bytes_eqb_spec h) as (m & E & Fa & _). eauto.
Qed.

(** * The example *)

Section Shapes.
Variable sg : bool.
Local Notation okh := (harmless_history bytes_eqb (hash_view sg)).
Local Notation sstep := (shape_step (V := target) bytes_eqb (hash_view sg)).

Definition shape_of (h : list (UMap.op bytes target)) : shape bytes := fold_left sstep h shape0.

Lemma harmless_app (a b : list (UMap.op bytes target)) : okh (a ++ b) <->
  okh a /\ harmless_from bytes_eqb (hash_view sg) (shape_of a) b.
Proof.
  unfold harmless_history, shape_of. generalize (shape0 (K := bytes)).
  induction a as [|x a IH]; intros s; simpl; [tauto|]. rewrite IH. tauto.
Qed.

Lemma shape_of_app a b : shape_of (a ++ b) = fold_left sstep b (shape_of a).
Proof. apply fold_left_app. Qed.

Definition adds k : list (UMap.op bytes target) :=
  map (fun c => Add (fst c) (Member k (snd c))) subsystem_commands.
Definition removes : list (UMap.op bytes target) := map Remove (map fst subsystem_commands).

Definition shape_first : shape bytes := shape_of [Add create_name (App 0); Add destroy_name (App 1)].
Definition shape_with : shape bytes := fold_left sstep (adds 0) shape_first.
Definition shape_without : shape bytes := fold_left sstep removes shape_with.

Lemma shape_step_value s k (v v' : target) : sstep s (Add k v) = sstep s (Add k v').
Proof. reflexivity. Qed.

Lemma adds_shape k : forall s, fold_left sstep (adds k) s = fold_left sstep (adds 0) s.
Proof.
  unfold adds. induction subsystem_commands as [|c l IH]; intros s; simpl; [reflexivity|].
  rewrite IH. reflexivity.
Qed.

End Shapes.

Lemma shape_again sg :
  fold_left (shape_step (V := target) bytes_eqb (hash_view sg)) (adds 0) (shape_without sg) = shape_with sg.
Proof. destruct sg; vm_compute; reflexivity. Qed.
Lemma shape_replaced sg :
  fold_left (shape_step (V := target) bytes_eqb (hash_view sg)) (adds 0) (shape_with sg) = shape_with sg.
Proof. destruct sg; vm_compute; reflexivity. Qed.
Lemma shape_gone sg :
  fold_left (shape_step (V := target) bytes_eqb (hash_view sg)) removes (shape_without sg) = shape_without sg.
Proof. destruct sg; vm_compute; reflexivity. Qed.

Lemma removes_harmless sg : harmless_from bytes_eqb (hash_view sg) (shape_with sg) removes.
Proof.
  destruct sg; vm_compute; repeat (split; [intros _; split; [intros H|intros _ H]; intuition discriminate|]);
    exact I.
Qed.
Lemma gone_harmless sg : harmless_from bytes_eqb (hash_view sg) (shape_without sg) removes.
Proof. destruct sg; vm_compute; repeat (split; [intuition discriminate|]); exact I. Qed.

Section Example.
Variable sg : bool.
Local Notation okh := (harmless_history bytes_eqb (hash_view sg)).
Local Notation after := (after_ops sg (lib_erase sg)).
Local Notation sstep := (shape_step (V := target) bytes_eqb (hash_view sg)).
Local Notation shape_of := (shape_of sg).
Local Notation shape_first := (shape_first sg).
Local Notation shape_with := (shape_with sg).
Local Notation shape_without := (shape_without sg).

Lemma adds_harmless k : forall s, harmless_from bytes_eqb (hash_view sg) s (adds k).
Proof.
  unfold adds. induction subsystem_commands as [|c l IH]; intros s; simpl; [exact I|].
  split; [exact I|apply IH].
Qed.

(** The field of the Subsystem that a command refers to. *)
Fixpoint field_of (n : bytes) (l : list (bytes * nat)) : option nat :=
  match l with
  | [] => None
  | (k, f) :: r => if bytes_eqb n k then Some f else field_of n r
  end.

Definition table (s : stage) (k : nat) (n : bytes) : option target :=
  if bytes_eqb n create_name then Some (App 0)
  else if bytes_eqb n destroy_name then Some (App 1)
  else match s with
       | Present => option_map (Member k) (field_of n subsystem_commands)
       | _ => None
       end.

(** Whether [sub] and the registry are as they should be at the stage [s], when [c] Subsystems
    have been created. *)
Record inv (s : stage) (c : nat) (h : past) (w : world) (sub : option nat) : Prop := Inv {
  i_past : sensible_past h;
  i_after : after h w;
  i_ok : okh (registry_history h);
  i_created : created h = c;
  i_table : forall n, ideal bytes_eqb (registry_history h) n = table s (c - 1) n;
  i_sub : match s with
          | Absent => sub = None
          | _ => c <> 0 /\ sub = Some (c - 1) /\ alive h (c - 1) /\
                 listed h (c - 1) = map fst subsystem_commands
          end;
  i_shape : match s with
            | Absent => shape_of (registry_history h) = shape_first \/
                        shape_of (registry_history h) = shape_without
            | Present => shape_of (registry_history h) = shape_with
            | Hidden => shape_of (registry_history h) = shape_without
            end
}.

Lemma ideal_snoc h x n : ideal bytes_eqb (registry_history (x :: h)) n =
  fold_left (ideal_step bytes_eqb) (events h x) (ideal bytes_eqb (registry_history h)) n.
Proof. unfold ideal. cbn [registry_history]. now rewrite fold_left_app. Qed.

Lemma sensible_cons h x : sensible_past h -> sensible h x -> sensible_past (x :: h).
Proof.
  intros H S [|y l] z r E; simpl in E; injection E as <- E; [now subst|now apply (H l)].
Qed.

Lemma do_step h w x : after h w -> okh (registry_history h) -> sensible h x ->
  harmless_from bytes_eqb (hash_view sg) (shape_of (registry_history h)) (events h x) ->
  (forall n, x <> OExecute n) ->
  exists w', step sg (lib_erase sg) w x = Done (w', []) /\ after (x :: h) w' /\
    okh (registry_history (x :: h)) /\
    shape_of (registry_history (x :: h)) =
      fold_left sstep (events h x) (shape_of (registry_history h)).
Proof.
  intros Hw O Se Hh Nx.
  assert (O' : okh (registry_history (x :: h))) by (cbn [registry_history]; now apply harmless_app).
  destruct (step_quiet sg (lib_erase sg) okh (lib_faithful sg) h w x Hw Se O' Nx) as (w' & E & Hw').
  exists w'. split; [exact E|]. split; [exact Hw'|]. split; [exact O'|].
  cbn [registry_history]. apply shape_of_app.
Qed.

Lemma adds_table k n (f : bytes -> option target) :
  fold_left (ideal_step bytes_eqb) (adds k) f n =
  match field_of n subsystem_commands with Some x => Some (Member k x) | None => f n end.
Proof.
  cbn [adds map fold_left ideal_step subsystem_commands fst snd field_of].
  destruct (bytes_eqb_spec n (lit "subsystem.do_some_work")) as [->|N3]; [reflexivity|].
  destruct (bytes_eqb_spec n (lit "subsystem.data")) as [->|N2]; [reflexivity|].
  destruct (bytes_eqb_spec n (lit "subsystem.counter")) as [->|N1]; [reflexivity|].
  now destruct (bytes_eqb_spec n (lit "subsystem.time")).
Qed.

Lemma removes_table n (f : bytes -> option target) :
  fold_left (ideal_step bytes_eqb) removes f n =
  match field_of n subsystem_commands with Some x => None | None => f n end.
Proof.
  unfold removes. rewrite ideal_removes. cbn [subsystem_commands map fst existsb field_of].
  destruct (bytes_eqb n (lit "subsystem.time")); [reflexivity|].
  destruct (bytes_eqb n (lit "subsystem.counter")); [reflexivity|].
  destruct (bytes_eqb n (lit "subsystem.data")); [reflexivity|].
  now destruct (bytes_eqb n (lit "subsystem.do_some_work")).
Qed.

Lemma field_app_names n : field_of n subsystem_commands <> None ->
  bytes_eqb n create_name = false /\ bytes_eqb n destroy_name = false.
Proof.
  cbn [subsystem_commands field_of].
  destruct (bytes_eqb_spec n (lit "subsystem.time")) as [->|_]; [easy|].
  destruct (bytes_eqb_spec n (lit "subsystem.counter")) as [->|_]; [easy|].
  destruct (bytes_eqb_spec n (lit "subsystem.data")) as [->|_]; [easy|].
  destruct (bytes_eqb_spec n (lit "subsystem.do_some_work")) as [->|_]; [easy|]. congruence.
Qed.

Lemma table_adds s c k n :
  match field_of n subsystem_commands with Some x => Some (Member k x) | None => table s c n end =
  table Present k n.
Proof.
  unfold table. destruct (field_of n subsystem_commands) as [x|] eqn:E.
  - destruct (field_app_names n) as [-> ->]; [congruence|]. reflexivity.
  - destruct (bytes_eqb n create_name); [reflexivity|].
    destruct (bytes_eqb n destroy_name); [reflexivity|]. simpl. now destruct s.
Qed.

Lemma table_removes s c k n :
  match field_of n subsystem_commands with Some x => None | None => table s c n end = table Absent k n.
Proof.
  unfold table. destruct (field_of n subsystem_commands) as [x|] eqn:E.
  - destruct (field_app_names n) as [-> ->]; [congruence|]. reflexivity.
  - destruct (bytes_eqb n create_name); [reflexivity|].
    destruct (bytes_eqb n destroy_name); [reflexivity|]. simpl. now destruct s.
Qed.

(** Constructing a Subsystem. *)
Lemma create_inv s c h w sub : inv s c h w sub ->
  exists w', create sg w subsystem_commands = Done w' /\
    let h' := OCreate subsystem_commands :: h in
    sensible_past h' /\ after h' w' /\ okh (registry_history h') /\ created h' = S c /\
    (forall n, ideal bytes_eqb (registry_history h') n = table Present c n) /\
    alive h' c /\ listed h' c = map fst subsystem_commands /\
    shape_of (registry_history h') = shape_with /\
    (forall o, alive h o -> alive h' o /\ listed h' o = listed h o).
Proof.
  intros [Hs Ha Ho Hc Ht Hsub Hsh].
  destruct (do_step h w (OCreate subsystem_commands) Ha Ho I) as (w' & E & A' & O' & Sh').
  { apply adds_harmless. }
  { discriminate. }
  cbn [step quiet] in E. destruct (create sg w subsystem_commands) as [w1|]; [|discriminate].
  cbn [quiet bind] in E. injection E as <-. exists w1. split; [reflexivity|].
  assert (Hs' : sensible_past (OCreate subsystem_commands :: h)) by (now apply sensible_cons).
  cbn zeta. split; [exact Hs'|]. split; [exact A'|]. split; [exact O'|].
  split; [cbn [created]; congruence|]. split.
  { intros n. rewrite ideal_snoc. cbn [events]. fold (adds (created h)).
    rewrite adds_table, Ht, Hc. apply table_adds. }
  split; [rewrite <- Hc; now apply (alive_new h (OCreate subsystem_commands))|].
  split; [cbn [listed]; now rewrite <- Hc, Nat.eqb_refl|]. split.
  { rewrite Sh'. cbn [events]. fold (adds (created h)). rewrite adds_shape.
    destruct s; [destruct Hsh as [->| ->]; [reflexivity|apply shape_again]|rewrite Hsh; apply shape_replaced|
      rewrite Hsh; apply shape_again]. }
  intros o A. split; [apply alive_keep; [exact A|discriminate]|]. cbn [listed].
  destruct (Nat.eqb_spec o (created h)) as [->|_]; [destruct A; lia|reflexivity].
Qed.

(** Destroying one whose names are registered, or were. *)
Lemma destroy_registered h w o s c : after h w -> okh (registry_history h) -> sensible_past h ->
  alive h o -> listed h o = map fst subsystem_commands ->
  (forall n, ideal bytes_eqb (registry_history h) n = table s c n) ->
  shape_of (registry_history h) = shape_with \/ shape_of (registry_history h) = shape_without ->
  exists w', destroy (lib_erase sg) w o = Done w' /\
    let h' := ODestroy o :: h in
    sensible_past h' /\ after h' w' /\ okh (registry_history h') /\ created h' = created h /\
    (forall n k, ideal bytes_eqb (registry_history h') n = table Absent k n) /\
    shape_of (registry_history h') = shape_without /\
    (forall p, p <> o -> alive h p -> alive h' p /\ listed h' p = listed h p).
Proof.
  intros A O Hs Al Li Ht Sh.
  destruct (do_step h w (ODestroy o) A O Al) as (w' & E & A' & O' & Sh').
  { cbn [events]. rewrite Li. fold removes. destruct Sh as [->| ->]; [apply removes_harmless|apply gone_harmless]. }
  { discriminate. }
  cbn [step quiet] in E. destruct (destroy (lib_erase sg) w o) as [w1|]; [|discriminate].
  cbn [quiet bind] in E. injection E as <-. exists w1. split; [reflexivity|]. cbn zeta.
  split; [now apply sensible_cons|]. split; [exact A'|]. split; [exact O'|]. split; [reflexivity|].
  split.
  { intros n k. rewrite ideal_snoc. cbn [events]. rewrite Li. fold removes.
    rewrite removes_table, Ht. apply table_removes. }
  split.
  { rewrite Sh'. cbn [events]. rewrite Li. fold removes. destruct Sh as [->| ->]; [reflexivity|apply shape_gone]. }
  intros p Ne Ap. split; [apply alive_keep; [exact Ap|congruence]|]. cbn [listed].
  destruct (Nat.eqb_spec p o); [congruence|reflexivity].
Qed.

Definition ex_answer (s : stage) (c : nat) (n : bytes) : answer :=
  match table s (c - 1) n with Some t => Ran t | None => NotFound end.

Lemma table_absent_hidden k n : table Absent k n = table Hidden k n.
Proof. reflexivity. Qed.

Lemma command_inv s c h w sub n : inv s c h w sub ->
  exists h' w' sub', command sg (lib_erase sg) w sub n = Done (w', sub', ex_answer s c n) /\
    inv (next_stage s n) (if bytes_eqb n create_name then S c else c) h' w' sub'.
Proof.
  intros Hi. pose proof Hi as [Hs Ha Ho Hc Ht Hsub Hsh].
  unfold command.
  assert (Ex : execute sg w n = Done (ex_answer s c n)).
  { destruct (execute_spec sg (lib_erase sg) okh (lib_faithful sg) h w n Ha Ho (served_created h Hs n))
      as [(a & -> & R & _)|[_ (o & f & G & N)]].
    - f_equal. unfold ex_answer. destruct a as [|t]; simpl in R.
      + specialize (Ht n). destruct (table s (c - 1) n) as [t|]; [|reflexivity].
        destruct (R t). now apply serves_iff.
      + apply serves_iff in R. rewrite Ht in R. now rewrite R.
    - exfalso. apply N. apply serves_iff in G. rewrite Ht in G. unfold table in G.
      destruct (bytes_eqb n create_name); [discriminate|].
      destruct (bytes_eqb n destroy_name); [discriminate|].
      destruct s; try discriminate. destruct (field_of n subsystem_commands); [|discriminate].
      injection G as <- _. apply Hsub. }
  rewrite Ex. cbn [bind]. unfold ex_answer, next_stage.
  unfold table. destruct (bytes_eqb n create_name).
  - (* create_subsystem *)
    unfold handler. cbn [Nat.eqb].
    destruct (create_inv _ _ _ _ _ Hi) as (w1 & E1 & Hs1 & A1 & O1 & C1 & T1 & Al1 & Li1 & Sh1 & K1).
    rewrite E1. cbn [bind].
    assert (Lw : length (w_objects w) = c) by (rewrite <- Hc; apply Ha).
    destruct s.
    + subst sub. cbn [bind]. eexists (OCreate subsystem_commands :: h), w1, _. split; [rewrite Lw; reflexivity|].
      constructor; try assumption; rewrite ?Nat.sub_succ, ?Nat.sub_0_r; try assumption.
      repeat split; auto; try lia; apply Al1.
    + destruct Hsub as (Nc & -> & Al & Li).
      destruct (K1 _ Al) as [Al' Li'].
      destruct (destroy_registered _ w1 (c - 1) Present c A1 O1 Hs1 Al') as (w2 & E2 & Hs2 & A2 & O2 & C2 & T2 & Sh2 & K2);
        [congruence|exact T1|now left|].
      rewrite E2. cbn [bind]. eexists (ODestroy (c - 1) :: OCreate subsystem_commands :: h), w2, _. split; [rewrite Lw; reflexivity|].
      destruct (K2 c) as [Al2 Li2]; [lia|exact Al1|].
      constructor; try assumption; rewrite ?Nat.sub_succ, ?Nat.sub_0_r; try congruence.
      * intros k. rewrite (T2 k c). apply table_absent_hidden.
      * repeat split; try congruence; apply Al2.
    + destruct Hsub as (Nc & -> & Al & Li).
      destruct (K1 _ Al) as [Al' Li'].
      destruct (destroy_registered _ w1 (c - 1) Present c A1 O1 Hs1 Al') as (w2 & E2 & Hs2 & A2 & O2 & C2 & T2 & Sh2 & K2);
        [congruence|exact T1|now left|].
      rewrite E2. cbn [bind]. eexists (ODestroy (c - 1) :: OCreate subsystem_commands :: h), w2, _. split; [rewrite Lw; reflexivity|].
      destruct (K2 c) as [Al2 Li2]; [lia|exact Al1|].
      constructor; try assumption; rewrite ?Nat.sub_succ, ?Nat.sub_0_r; try congruence.
      * intros k. rewrite (T2 k c). apply table_absent_hidden.
      * repeat split; try congruence; apply Al2.
  - destruct (bytes_eqb n destroy_name).
    + (* destroy_subsystem *)
      unfold handler. cbn [Nat.eqb]. destruct s.
      * subst sub. cbn [bind]. exists h, w, None. split; [reflexivity|exact Hi].
      * destruct Hsub as (Nc & -> & Al & Li).
        destruct (destroy_registered h w (c - 1) Present (c - 1) Ha Ho Hs Al Li Ht) as (w2 & E2 & Hs2 & A2 & O2 & C2 & T2 & Sh2 & K2);
          [now left|]. rewrite E2. cbn [bind]. eexists (ODestroy (c - 1) :: h), w2, None. split; [reflexivity|].
        constructor; try assumption; auto; congruence.
      * destruct Hsub as (Nc & -> & Al & Li).
        destruct (destroy_registered h w (c - 1) Hidden (c - 1) Ha Ho Hs Al Li Ht) as (w2 & E2 & Hs2 & A2 & O2 & C2 & T2 & Sh2 & K2);
          [now right|]. rewrite E2. cbn [bind]. eexists (ODestroy (c - 1) :: h), w2, None. split; [reflexivity|].
        constructor; try assumption; auto; congruence.
    + exists h, w, sub. split; [|exact Hi].
      destruct s; try reflexivity. now destruct (field_of n subsystem_commands).
Qed.

Definition count_from (c : nat) (ns : list bytes) : nat := c + creations ns.

Lemma commands_inv ns : forall s c h w sub, inv s c h w sub ->
  exists h' w' sub' rs, commands sg (lib_erase sg) w sub ns = Done (w', sub', rs) /\
    inv (fold_left next_stage ns s) (c + creations ns) h' w' sub' /\
    length rs = length ns /\
    forall i n, nth_error ns i = Some n ->
      nth_error rs i = Some (ex_answer (fold_left next_stage (firstn i ns) s)
                                       (c + creations (firstn i ns)) n).
Proof.
  induction ns as [|n ns IH]; intros s c h w sub Hi.
  - exists h, w, sub, []. split; [reflexivity|]. split; [|split; [reflexivity|]].
    + replace (c + creations []) with c by (unfold creations; simpl; lia). exact Hi.
    + intros [|i] n E; discriminate.
  - cbn [commands]. destruct (command_inv s c h w sub n Hi) as (h1 & w1 & sub1 & E1 & Hi1).
    rewrite E1. cbn [bind fst snd].
    destruct (IH _ _ _ _ _ Hi1) as (h2 & w2 & sub2 & rs & E2 & Hi2 & L & An). rewrite E2.
    cbn [bind fst snd]. exists h2, w2, sub2, (ex_answer s c n :: rs). split; [reflexivity|].
    assert (Q : forall l, (if bytes_eqb n create_name then S c else c) + creations l = c + creations (n :: l)).
    { intros l. unfold creations. cbn [filter]. destruct (bytes_eqb n create_name); simpl; lia. }
    split; [rewrite <- Q; exact Hi2|]. split; [simpl; congruence|].
    intros [|i] m E; simpl in E.
    + injection E as ->. simpl. unfold creations. simpl. now rewrite Nat.add_0_r.
    + cbn [nth_error]. rewrite (An i m E). cbn [firstn fold_left]. now rewrite Q.
Qed.

Lemma do_bind h w n a : after h w -> okh (registry_history h) ->
  exists w', global_add sg w n (App a) = Done w' /\ after (OBind n a :: h) w' /\
    okh (registry_history (OBind n a :: h)).
Proof.
  intros A O.
  destruct (do_step h w (OBind n a) A O I) as (w1 & E1 & A1 & O1 & _).
  { cbn [events harmless_from]. split; exact I. }
  { discriminate. }
  cbn [step] in E1. destruct (global_add sg w n (App a)) as [v1|]; [|discriminate].
  cbn [quiet bind] in E1. injection E1 as ->. eauto.
Qed.

Lemma start_inv : exists h w,
  (w <- global_add sg start (lit "create_subsystem") (App 0) ;;
   global_add sg w (lit "destroy_subsystem") (App 1)) = Done w /\ inv Absent 0 h w None.
Proof.
  destruct (do_bind [] start create_name 0 (after_start sg (lib_erase sg)) I) as (w1 & E1 & A1 & O1).
  destruct (do_bind _ w1 destroy_name 1 A1 O1) as (w2 & E2 & A2 & O2).
  exists [OBind destroy_name 1; OBind create_name 0], w2. split.
  { fold create_name. rewrite E1. cbn [bind]. exact E2. }
  assert (Er : registry_history [OBind destroy_name 1; OBind create_name 0] =
               [Add create_name (App 0); Add destroy_name (App 1)]) by reflexivity.
  constructor; [|assumption|assumption|reflexivity| |reflexivity|].
  - intros [|? [|? ?]] x r E; injection E; intros; subst; try exact I; destruct l; discriminate.
  - intros n. rewrite Er. unfold ideal, table. cbn [fold_left ideal_step].
    destruct (bytes_eqb_spec n destroy_name) as [->|]; [reflexivity|].
    now destruct (bytes_eqb n create_name).
  - left. unfold shape_first. now rewrite Er.
Qed.

Lemma ex_answer_spec ns n : example_answer ns n (ex_answer (stage_after ns) (creations ns) n).
Proof.
  unfold example_answer, ex_answer, table. change members with subsystem_commands.
  destruct (bytes_eqb n create_name); [reflexivity|].
  destruct (bytes_eqb n destroy_name); [reflexivity|].
  destruct (stage_after ns); try reflexivity.
  destruct (field_of n subsystem_commands) as [f|] eqn:E; cbn [option_map].
  - left. exists f. split; [|reflexivity]. clear - E.
    induction subsystem_commands as [|[k x] l IH]; simpl in *; [discriminate|].
    destruct (bytes_eqb_spec n k) as [->|]; [left; congruence|right; auto].
  - right. split; [|reflexivity]. clear - E. intros H.
    induction subsystem_commands as [|[k x] l IH]; simpl in *; [easy|].
    destruct (bytes_eqb_spec n k) as [->|N]; [discriminate|]. destruct H as [->|H]; [now apply N|auto].
Qed.

Lemma commands_from_start ns : exists h w sub rs,
  example_commands sg (lib_erase sg) ns = Done (w, sub, rs) /\
  inv (stage_after ns) (creations ns) h w sub /\ length rs = length ns /\
  forall i n, nth_error ns i = Some n -> exists a, nth_error rs i = Some a /\
    example_answer (firstn i ns) n a.
Proof.
  destruct start_inv as (h & w & E & Hi).
  destruct (commands_inv ns _ _ _ _ _ Hi) as (h' & w' & sub & rs & Ec & Hi' & L & An).
  exists h', w', sub, rs. split; [|split; [exact Hi'|split; [exact L|]]].
  - unfold example_commands. revert E.
    destruct (global_add sg start _ (App 0)); cbn [bind]; [|discriminate].
    intros ->. cbn [bind]. exact Ec.
  - intros i n Hn. eexists. split; [exact (An i n Hn)|]. exact (ex_answer_spec (firstn i ns) n).
Qed.

Lemma run_example_end ns :
  (stage_after ns = Absent -> exists w rs, example_commands sg (lib_erase sg) ns = Done (w, None, rs) /\
     run_example sg (lib_erase sg) ns = Done rs) /\
  (stage_after ns <> Absent -> run_example sg (lib_erase sg) ns = Fault NullDeref).
Proof.
  destruct (commands_from_start ns) as (h & w & sub & rs & E & Hi & _).
  destruct Hi as [_ Ha _ _ _ Hsub _]. unfold run_example. rewrite E. cbn [bind fst snd]. split.
  - intros St. rewrite St in Hsub. subst sub. exists w, rs. now split.
  - intros St.
    assert (S' : sub = Some (creations ns - 1) /\ alive h (creations ns - 1) /\
                 listed h (creations ns - 1) = map fst subsystem_commands)
      by (destruct (stage_after ns); [congruence|tauto..]).
    destruct S' as (-> & Al & Li). unfold destroy, scoped_clear.
    destruct Ha as (_ & _ & Ho & _).
    rewrite (proj2 (names_of_done (World None (w_objects w)) _ _) (Ho _ Al)). cbn [bind].
    rewrite Li. reflexivity.
Qed.
End Example.
