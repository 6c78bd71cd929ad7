(** Consequences of the refinement: classes of histories, termination, load factor. *)
From Coq Require Import Ascii String NArith ZArith Bool PeanoNat Lia List.
Import ListNotations.
From Verif Require Import Util Base UMap UMapSpec UMapProofs.

Section More.
Context {K V : Type}.
Variable keqb : K -> K -> bool.
Variable hash : K -> Z.
Hypothesis keqb_spec : forall a b, reflect (a = b) (keqb a b).
Notation node := (node K V).
Notation umap := (umap K V).
Notation op := (op K V).

(** * Harmless histories *)

Lemma harmless_good (h : list op) :
  harmless_history keqb hash h ->
  exists m s, run keqb hash h = Done m /\ good hash m s (ideal keqb h).
Proof.
  intros Hh. destruct (good_run keqb hash keqb_spec h _ _ _ (good_empty hash) Hh) as (m & s & E & G).
  now exists m, s.
Qed.

Lemma harmless_faithful (h : list op) :
  harmless_history keqb hash h ->
  exists m, run keqb hash h = Done m /\ faithful keqb hash m h.
Proof.
  intros Hh. destruct (harmless_good h Hh) as (m & s & E & G). exists m. split; [easy|].
  intros k. eapply good_find; eauto.
Qed.

Lemma good_contents m s f : good hash m s f -> lists_contents (iterate m) (f : K -> option V).
Proof.
  intros (ch & W & O & Hk & Hw & Hf & _). split.
  - pose proof (wf_nodup_keys _ _ _ _ _ W) as H. rewrite nkeys_pairs in H. exact H.
  - exact Hf.
Qed.

Lemma harmless_contents (h : list op) :
  harmless_history keqb hash h ->
  exists m, run keqb hash h = Done m /\ lists_contents (iterate m) (ideal keqb h) /\
    size m = length (iterate m).
Proof.
  intros Hh. destruct (harmless_good h Hh) as (m & s & E & G). exists m. split; [easy|].
  split; [eapply good_contents; eauto|]. unfold size, iterate. now rewrite map_length.
Qed.

Lemma fixed_faithful (h : list op) :
  exists m, run_fixed keqb hash h = Done m /\ faithful keqb hash m h /\
    lists_contents (iterate m) (ideal keqb h).
Proof.
  destruct (good_fixed_run keqb hash keqb_spec h empty_map (fun _ => None)) as (m & E & s & Hs & G).
  { exists shape0. split; [easy|]. apply good_empty. }
  exists m. split; [exact E|]. split.
  - intros k. eapply good_find; eauto.
  - eapply good_contents; eauto.
Qed.

(** ** No removals *)

Lemma no_removals_harmless (h : list op) s : no_removals h -> harmless_from keqb hash s h.
Proof.
  revert s. induction h as [|o h IH]; intros s H; cbn; [easy|]. split.
  - specialize (H o (or_introl eq_refl)). now destruct o.
  - apply IH. intros o' Ho. apply H. now right.
Qed.

(** ** Last in, first out *)

Lemma without_head k (l : list K) : NoDup (k :: l) -> without keqb k (k :: l) = l.
Proof.
  intros H. inversion H; subst. cbn. destruct (keqb_spec k k); [|easy]. cbn.
  now apply without_notin.
Qed.

Lemma without_opt_nil o : without_opt keqb o [] = [].
Proof. now destruct o. Qed.

Lemma lifo_harmless (h : list op) : forall s st,
  slots s = rev st -> NoDup st -> stale s = [] ->
  lifo_from keqb st h -> harmless_from keqb hash s h.
Proof.
  induction h as [|o h IH]; intros s st Hs Hd Hst; cbn; [easy|]. intros [Ho Hl]. split.
  - destruct o; cbn; try easy. rewrite Hst. easy.
  - destruct o as [k v|k|]; cbn [shape_step stack_step] in *.
    + unfold shape_add. destruct (memb_spec keqb keqb_spec k (slots s)) as [H|H].
      * rewrite Hs, <- in_rev in H. destruct (memb_spec keqb keqb_spec k st) as [_|?]; [|easy].
        eapply IH; eauto.
      * rewrite Hs, <- in_rev in H. destruct (memb_spec keqb keqb_spec k st) as [?|_]; [easy|].
        eapply IH; [| | |exact Hl].
        -- destruct (load_exceeds _ _); cbn; now rewrite Hs.
        -- now constructor.
        -- destruct (load_exceeds _ _); cbn; easy.
    + unfold shape_remove. destruct (memb_spec keqb keqb_spec k (slots s)) as [H|H].
      * pose proof H as H'. rewrite Hs, <- in_rev in H'. specialize (Ho H').
        destruct st as [|k' st]; [easy|]. injection Ho as ->.
        rewrite without_head in Hl by easy.
        rewrite Hs. cbn [rev]. rewrite last_last, removelast_last.
        destruct (keqb_spec k k); [|easy]. inversion Hd; subst.
        eapply IH; [| | |exact Hl]; cbn; try easy. rewrite Hst. apply without_opt_nil.
      * rewrite Hs, <- in_rev in H. rewrite without_notin in Hl by easy. eapply IH; eauto.
    + eapply IH; [| | |exact Hl]; cbn; try easy. constructor.
Qed.

(** ** At most two removals between clears *)

Lemma after_last k (l : list K) : NoDup (l ++ [k]) -> after keqb k (l ++ [k]) = [].
Proof.
  induction l as [|x l IH]; cbn; intros H.
  - destruct (keqb_spec k k); easy.
  - inversion H; subst. destruct (keqb_spec x k) as [->|].
    + exfalso. apply H2. apply in_app_iff. right. now left.
    + auto.
Qed.

Definition few_inv (left : nat) (st : list K) (s : shape K) : Prop :=
  NoDup (slots s) /\ (forall k, In k st <-> In k (slots s)) /\
  (1 <= left -> stale s = []) /\ (2 <= left -> order s = slots s).

Lemma nodup_snoc_inv {A} (l : list A) x : NoDup (l ++ [x]) -> NoDup l /\ ~ In x l.
Proof.
  intros H. split.
  - apply NoDup_remove_1 in H. now rewrite app_nil_r in H.
  - apply NoDup_remove_2 in H. now rewrite app_nil_r in H.
Qed.

Lemma fill_nodup k l (ls : list K) :
  NoDup (ls ++ [l]) -> NoDup (map (fun x => if keqb x k then l else x) ls).
Proof.
  intros H. apply nodup_snoc_inv in H. destruct H as [Hd Hl].
  induction ls as [|x ls IH]; cbn; [constructor|]. inversion Hd; subst.
  assert (Hl' : ~ In l ls) by (intros Hx; apply Hl; now right).
  constructor; [|auto]. rewrite in_map_iff. intros (y & Hy & Hin).
  destruct (keqb_spec y k) as [Hyk|Hyk], (keqb_spec x k) as [Hxk|Hxk]; try congruence.
  apply Hl. now left.
Qed.

Lemma fill_in k l (ls : list K) x :
  In k ls -> ~ In l ls -> NoDup ls ->
  In x (map (fun x => if keqb x k then l else x) ls) <-> (In x (ls ++ [l])) /\ x <> k.
Proof.
  intros Hk Hl Hd. rewrite in_map_iff, in_app_iff. cbn. split.
  - intros (y & Hy & Hin). destruct (keqb_spec y k) as [Hyk|Hyk].
    + split; [tauto|]. intros Hxk. apply Hl. congruence.
    + split; [left|]; congruence.
  - intros [[H|[<-|[]]] Hx].
    + exists x. destruct (keqb_spec x k); easy.
    + exists k. destruct (keqb_spec k k); easy.
Qed.

Lemma removelast_in k (ls : list K) x :
  NoDup (ls ++ [k]) -> In x ls <-> In x (ls ++ [k]) /\ x <> k.
Proof.
  intros H. apply nodup_snoc_inv in H. destruct H as [_ Hk]. rewrite in_app_iff. cbn.
  split; [|intuition congruence]. intros Hx. split; [tauto|]. intros ->. easy.
Qed.

Lemma few_remove left st s k :
  few_inv (S left) st s -> In k (slots s) -> left <= 1 ->
  few_inv left (without keqb k st) (shape_remove keqb hash s k).
Proof.
  intros (Hd & Hst & Hs1 & Hs2) Hin Hle. unfold shape_remove.
  destruct (memb_spec keqb keqb_spec k (slots s)) as [_|?]; [|easy].
  assert (Hs1' := Hs1 ltac:(lia)).
  destruct (list_snoc (slots s)) as [E|(ls & l & E)]; [now rewrite E in Hin|].
  rewrite E in *. rewrite last_last, removelast_last. rewrite Hs1'. cbn [without filter].
  rewrite without_opt_nil.
  destruct (keqb_spec l k) as [->|Hlk].
  - split; cbn; [now apply nodup_snoc_inv in Hd|]. split.
    + intros x. rewrite in_without by easy. rewrite Hst. symmetry. now apply removelast_in.
    + split; [easy|]. intros. lia.
  - assert (Hkls : In k ls).
    { apply in_app_iff in Hin. destruct Hin as [H|[H|[]]]; [easy|congruence]. }
    pose proof (nodup_snoc_inv _ _ Hd) as [Hd1 Hd2].
    split; cbn [slots]; unfold fill; rewrite removelast_last; [now apply fill_nodup|]. split.
    + intros x. rewrite in_without by easy. rewrite Hst. symmetry. now apply fill_in.
    + split; [|intros; lia]. cbn [stale]. intros Hl. rewrite app_nil_r.
      assert (left = 1) by lia. subst left. rewrite (Hs2 ltac:(lia)).
      unfold next_of. cbn [width order]. rewrite without_app by easy.
      replace (without keqb k [l]) with [l] by (cbn; destruct (keqb_spec l k); easy).
      rewrite after_last; [easy|].
      apply NoDup_app_snoc; [now apply NoDup_filter|]. rewrite in_without by easy. tauto.
Qed.

Lemma few_add left st s k :
  few_inv left st s -> few_inv left (if memb keqb k st then st else k :: st) (shape_add keqb s k).
Proof.
  intros (Hd & Hst & Hs1 & Hs2). unfold shape_add.
  destruct (memb_spec keqb keqb_spec k (slots s)) as [H|H], (memb_spec keqb keqb_spec k st) as [H'|H'];
    rewrite Hst in H'; try easy.
  set (s1 := if load_exceeds _ _ then _ else _).
  assert (H1 : slots s1 = slots s /\ (1 <= left -> stale s1 = []) /\ (2 <= left -> order s1 = slots s)).
  { unfold s1. destruct (load_exceeds _ _); cbn; auto. }
  destruct H1 as (H1 & H2 & H3). split; cbn; [|split; [|split]].
  - rewrite H1. now apply NoDup_app_snoc.
  - intros x. rewrite H1, in_app_iff, <- Hst. cbn. intuition.
  - exact H2.
  - intros Hl. rewrite H1, (H3 Hl). easy.
Qed.

Lemma few_harmless (h : list op) : forall left st s,
  left <= 2 -> few_inv left st s -> few_removals_from keqb 2 left st h -> harmless_from keqb hash s h.
Proof.
  induction h as [|o h IH]; intros left st s Hle Hi; cbn [few_removals_from harmless_from]; [easy|].
  destruct o as [k v|k|].
  - intros H. split; [easy|]. eapply IH; [exact Hle| |exact H]. now apply few_add.
  - destruct (memb_spec keqb keqb_spec k st) as [Hk|Hk].
    + destruct left as [|left]; [easy|]. intros H. split.
      * cbn. destruct Hi as (_ & _ & Hs & _). rewrite (Hs ltac:(lia)). easy.
      * eapply IH; [| |exact H]; [lia|]. apply few_remove; [easy| |lia].
        destruct Hi as (_ & Hst & _). now apply Hst.
    + intros H. destruct Hi as (Hd & Hst & Hs). assert (Hns : ~ In k (slots s)) by (now rewrite <- Hst).
      split; [easy|]. eapply IH; [exact Hle| |exact H]. cbn [stack_step].
      rewrite without_notin by easy. cbn [shape_step]. unfold shape_remove.
      destruct (memb_spec keqb keqb_spec k (slots s)); easy.
  - intros H. split; [easy|]. eapply (IH 2); [lia| |exact H]. split; cbn; [constructor|]. easy.
Qed.

(** ** No collisions *)

Lemma good_ordered_live m s f k :
  good hash m s f -> In k (order s) -> exists v : V, f k = Some v.
Proof.
  intros G Hk. apply (good_live hash m s f k G). destruct G as (ch & W & O & Hs & _).
  rewrite <- Hs. eapply ordered_live; eauto.
Qed.

Lemma after_not_self k x (l : list K) :
  In x (after keqb k l) -> NoDup l -> x <> k.
Proof.
  induction l as [|y l IH]; [easy|]. cbn. intros H Hd. inversion Hd; subst.
  destruct (keqb_spec y k) as [->|]; [|auto]. intros ->. easy.
Qed.

Lemma collision_free_harmless (h : list op) : forall m s f,
  good hash m s f -> stale s = [] -> NoDup (order s) ->
  (forall p q m', h = p ++ q -> run_from (step keqb hash) m p = Done m' ->
     forall a b, fold_left (ideal_step keqb) p f a <> None ->
       fold_left (ideal_step keqb) p f b <> None -> a <> b ->
       (hash a mod Z.of_nat (length (buckets m')) <> hash b mod Z.of_nat (length (buckets m')))%Z) ->
  harmless_from keqb hash s h.
Proof.
  induction h as [|o h IH]; intros m s f G Hst Hnd Hc; cbn; [easy|].
  assert (Ho : harmless s o).
  { destruct o; cbn; try easy. now rewrite Hst. }
  split; [easy|].
  destruct (good_step keqb hash keqb_spec m s f o G Ho) as (m1 & E & G1).
  apply (IH m1 _ (ideal_step keqb f o) G1).
  - (* no stale links *)
    destruct o as [k v|k|]; cbn [shape_step]; [| |easy].
    + unfold shape_add. destruct (memb keqb k (slots s)); [easy|].
      destruct (load_exceeds _ _); easy.
    + unfold shape_remove. destruct (memb_spec keqb keqb_spec k (slots s)) as [Hk|?]; [|easy].
      rewrite Hst. cbn [without filter]. rewrite without_opt_nil.
      destruct (keqb_spec (last (slots s) k) k) as [?|Hlk]; [easy|]. cbn [stale].
      rewrite app_nil_r. unfold next_of. cbn [width order].
      destruct (filter _ _) as [|x l] eqn:Ef; [easy|]. exfalso.
      assert (Hx : In x (x :: l)) by now left. rewrite <- Ef in Hx. apply filter_In in Hx.
      destruct Hx as [Hx Hcol].
      assert (Hxl : x <> last (slots s) k).
      { eapply after_not_self; [exact Hx|]. now apply NoDup_filter. }
      apply after_incl in Hx.
      apply (in_without keqb hash keqb_spec) in Hx. destruct Hx as [Hx Hxk].
      destruct (good_ordered_live m s f x G Hx) as (v & Hv).
      assert (Hl : In (last (slots s) k) (slots s)) by (apply last_in; intros E0; now rewrite E0 in Hk).
      apply (good_live hash m s f _ G) in Hl. destruct Hl as (u & Hu).
      apply (Hc [] (Remove k :: h) m eq_refl eq_refl (last (slots s) k) x); cbn; try congruence.
      unfold collide in Hcol. apply Z.eqb_eq in Hcol.
      destruct G as (ch & W & O & Hs & Hw & _). rewrite Hw. exact Hcol.
  - (* order has no duplicates *)
    destruct o as [k v|k|]; cbn [shape_step]; [| |constructor].
    + unfold shape_add. destruct (memb_spec keqb keqb_spec k (slots s)) as [?|Hk]; [easy|].
      assert (Hko : ~ In k (order s)).
      { intros H. apply Hk. apply (good_live hash m s f k G). eapply good_ordered_live; eauto. }
      destruct (load_exceeds _ _); cbn [order]; apply NoDup_app_snoc; try easy.
      destruct G as (ch & W & O & Hs & _). rewrite <- Hs. eapply wf_nodup_keys; eauto.
    + unfold shape_remove. destruct (memb keqb k (slots s)); [|easy].
      destruct (keqb _ _); cbn [order]; now apply NoDup_filter.
  - intros p q m' -> Er. apply (Hc (o :: p) q m' eq_refl). cbn [run_from]. rewrite E. exact Er.
Qed.

(** * Termination *)

(** The walk of a lookup, with the nodes it visits. *)
Inductive walk (ns : list node) (k : K) : option nat -> list nat -> outcome (option nat) -> Prop :=
| walk_end : walk ns k None [] (Done None)
| walk_bad i : nth_error ns i = None -> walk ns k (Some i) [] (Fault AssertFailed)
| walk_hit i n : nth_error ns i = Some n -> n_key n = k -> walk ns k (Some i) [i] (Done (Some i))
| walk_next i n l r : nth_error ns i = Some n -> n_key n <> k -> walk ns k (n_next n) l r ->
    walk ns k (Some i) (i :: l) r.

Lemma walk_det ns k c l r : walk ns k c l r -> forall l' r', walk ns k c l' r' -> l = l' /\ r = r'.
Proof.
  induction 1 as [|i H|i n H Hk|i n l r H Hk Hw IH]; intros l' r' H'; inversion H'; subst;
    try easy; try congruence.
  assert (n0 = n) by congruence. subst n0. destruct (IH _ _ H3) as [-> ->]. easy.
Qed.

Lemma walk_suffix ns k c l r j :
  walk ns k c l r -> In j l -> exists l1 l2, l = l1 ++ j :: l2 /\ walk ns k (Some j) (j :: l2) r.
Proof.
  induction 1 as [|i H|i n H Hk|i n l r H Hk Hw IH]; cbn; try easy.
  - intros [<-|[]]. exists [], []. split; [easy|]. now apply walk_hit with n.
  - intros [<-|Hj].
    + exists [], l. split; [easy|]. now apply walk_next with n.
    + destruct (IH Hj) as (l1 & l2 & -> & Hw2). exists (i :: l1), l2. easy.
Qed.

Lemma walk_nodup ns k c l r : walk ns k c l r -> NoDup l.
Proof.
  induction 1 as [|i H|i n H Hk|i n l r H Hk Hw IH]; try constructor; try easy; [constructor|].
  intros Hin. destruct (walk_suffix _ _ _ _ _ _ Hw Hin) as (l1 & l2 & -> & Hw2).
  pose proof (walk_next _ _ _ _ _ _ H Hk Hw) as Hw1.
  destruct (walk_det _ _ _ _ _ Hw1 _ _ Hw2) as [E _].
  apply (f_equal (@length nat)) in E. cbn in E. rewrite app_length in E. cbn in E. lia.
Qed.

Lemma walk_length ns k c l r : walk ns k c l r -> length l <= length ns.
Proof.
  intros H. rewrite <- (seq_length (length ns) 0). apply NoDup_incl_length.
  - eapply walk_nodup; exact H.
  - induction H as [|i H|i n H Hk|i n l r H Hk Hw IH]; intros j; cbn; try easy.
    + intros [<-|[]]. apply in_seq. apply nth_error_lt in H. lia.
    + intros [<-|Hj]; [|now apply IH]. apply in_seq. apply nth_error_lt in H. lia.
Qed.

Lemma walk_find ns k c l r fuel :
  walk ns k c l r -> length l < fuel -> find_walk keqb fuel ns k c = r.
Proof.
  intros H. revert fuel. induction H as [|i H|i n H Hk|i n l r H Hk Hw IH]; intros fuel Hf; cbn in Hf;
    (destruct fuel as [|fuel]; [lia|]); cbn [find_walk]; unfold at_; rewrite ?H; cbn [bind]; try easy.
  - destruct (keqb_spec (n_key n) k); easy.
  - destruct (keqb_spec (n_key n) k); [easy|]. apply IH. lia.
Qed.

Lemma find_walk_walk (ns : list node) k fuel : forall c,
  find_walk keqb fuel ns k c <> Fault Diverges ->
  exists l, walk ns k c l (find_walk keqb fuel ns k c).
Proof.
  induction fuel as [|fuel IH]; intros [i|]; cbn [find_walk]; try easy.
  - intros _. exists []. constructor.
  - unfold at_. destruct (nth_error ns i) as [n|] eqn:Hn; cbn [bind].
    + destruct (keqb_spec (n_key n) k) as [Hk|Hk].
      * intros _. exists [i]. now apply walk_hit with n.
      * intros H. destruct (IH _ H) as (l & Hl). exists (i :: l). now apply walk_next with n.
    + intros _. exists []. now constructor.
  - intros _. exists []. constructor.
Qed.

(** A lookup reported as diverging does not end, however long one waits. *)
Lemma find_walk_diverges (ns : list node) k c fuel :
  find_walk keqb (S (length ns)) ns k c = Fault Diverges ->
  find_walk keqb fuel ns k c = Fault Diverges.
Proof.
  intros H. 
  assert (D : find_walk keqb fuel ns k c = Fault Diverges \/
              find_walk keqb fuel ns k c <> Fault Diverges).
  { destruct (find_walk keqb fuel ns k c) as [x|[]]; auto; right; easy. }
  destruct D as [D|D]; [easy|]. exfalso.
  destruct (find_walk_walk ns k fuel c D) as (l & Hl). apply D.
  rewrite <- H. symmetry. eapply walk_find; [exact Hl|]. apply walk_length in Hl. lia.
Qed.

(** The walk of an insertion. *)
Inductive iwalk (ns : list node) : nat -> list nat -> option nat -> Prop :=
| iwalk_bad i : nth_error ns i = None -> iwalk ns i [] None
| iwalk_end i n : nth_error ns i = Some n -> n_next n = None -> iwalk ns i [i] (Some i)
| iwalk_next i n j l r : nth_error ns i = Some n -> n_next n = Some j -> iwalk ns j l r ->
    iwalk ns i (i :: l) r.

Lemma iwalk_det ns c l r : iwalk ns c l r -> forall l' r', iwalk ns c l' r' -> l = l' /\ r = r'.
Proof.
  induction 1 as [i H|i n H Hk|i n j l r H Hk Hw IH]; intros l' r' H'; inversion H'; subst;
    try easy; try congruence.
  assert (j0 = j) by congruence. subst j0. destruct (IH _ _ H2) as [-> ->]. easy.
Qed.

Lemma iwalk_suffix ns c l r j :
  iwalk ns c l r -> In j l -> exists l1 l2, l = l1 ++ j :: l2 /\ iwalk ns j (j :: l2) r.
Proof.
  induction 1 as [i H|i n H Hk|i n k l r H Hk Hw IH]; cbn; try easy.
  - intros [<-|[]]. exists [], []. split; [easy|]. now apply iwalk_end with n.
  - intros [<-|Hj].
    + exists [], l. split; [easy|]. now apply iwalk_next with n k.
    + destruct (IH Hj) as (l1 & l2 & -> & Hw2). exists (i :: l1), l2. easy.
Qed.

Lemma iwalk_nodup ns c l r : iwalk ns c l r -> NoDup l.
Proof.
  induction 1 as [i H|i n H Hk|i n j l r H Hk Hw IH]; try constructor; try easy; [constructor|].
  intros Hin. destruct (iwalk_suffix _ _ _ _ _ Hw Hin) as (l1 & l2 & -> & Hw2).
  pose proof (iwalk_next _ _ _ _ _ _ H Hk Hw) as Hw1.
  destruct (iwalk_det _ _ _ _ Hw1 _ _ Hw2) as [E _].
  apply (f_equal (@length nat)) in E. cbn in E. rewrite app_length in E. cbn in E. lia.
Qed.

Lemma iwalk_length ns c l r : iwalk ns c l r -> length l <= length ns.
Proof.
  intros H. rewrite <- (seq_length (length ns) 0). apply NoDup_incl_length.
  - eapply iwalk_nodup; exact H.
  - induction H as [i H|i n H Hk|i n j l r H Hk Hw IH]; intros x; cbn; try easy.
    + intros [<-|[]]. apply in_seq. apply nth_error_lt in H. lia.
    + intros [<-|Hj]; [|now apply IH]. apply in_seq. apply nth_error_lt in H. lia.
Qed.

Lemma put_not_diverges (ns : list node) i x : put_prev ns i x <> Fault Diverges.
Proof. unfold put_prev, at_. destruct (nth_error ns i); easy. Qed.

Lemma iwalk_insert ns new c l r fuel :
  iwalk ns c l r -> length l < fuel -> insert_walk fuel ns new c <> Fault Diverges.
Proof.
  intros H. revert fuel. induction H as [i H|i n H Hk|i n j l r H Hk Hw IH]; intros fuel Hf; cbn in Hf;
    (destruct fuel as [|fuel]; [lia|]); cbn [insert_walk]; unfold at_; rewrite ?H; cbn [bind]; try easy.
  - rewrite Hk. unfold put_next, at_. rewrite H. cbn [bind]. apply put_not_diverges.
  - rewrite Hk. apply IH. lia.
Qed.

Lemma insert_walk_iwalk (ns : list node) new fuel : forall c,
  insert_walk fuel ns new c <> Fault Diverges -> exists l r, iwalk ns c l r.
Proof.
  induction fuel as [|fuel IH]; intros i; cbn [insert_walk]; try easy.
  unfold at_. destruct (nth_error ns i) as [n|] eqn:Hn; cbn [bind].
  - destruct (n_next n) as [j|] eqn:Hj.
    + intros H. destruct (IH _ H) as (l & r & Hl). exists (i :: l), r. now apply iwalk_next with n j.
    + intros _. exists [i], (Some i). now apply iwalk_end with n.
  - intros _. exists [], None. now constructor.
Qed.

Lemma insert_walk_diverges (ns : list node) new c fuel :
  insert_walk (S (length ns)) ns new c = Fault Diverges ->
  insert_walk fuel ns new c = Fault Diverges.
Proof.
  intros H.
  assert (D : insert_walk fuel ns new c = Fault Diverges \/
              insert_walk fuel ns new c <> Fault Diverges).
  { destruct (insert_walk fuel ns new c) as [x|[]]; auto; right; easy. }
  destruct D as [D|D]; [easy|]. exfalso.
  destruct (insert_walk_iwalk ns new fuel c D) as (l & r & Hl).
  eapply iwalk_insert; [exact Hl| |exact H]. apply iwalk_length in Hl. lia.
Qed.

(** * Load factor *)

Lemma put_prev_length (ns ns' : list node) i x : put_prev ns i x = Done ns' -> length ns' = length ns.
Proof.
  unfold put_prev. destruct (at_ ns i); cbn; [|easy]. intros [= <-]. apply set_nth_length.
Qed.
Lemma put_next_length (ns ns' : list node) i x : put_next ns i x = Done ns' -> length ns' = length ns.
Proof.
  unfold put_next. destruct (at_ ns i); cbn; [|easy]. intros [= <-]. apply set_nth_length.
Qed.

Lemma insert_walk_length fuel : forall ns ns' new i,
  insert_walk fuel ns new i = Done (ns' : list node) -> length ns' = length ns.
Proof.
  induction fuel as [|fuel IH]; intros ns ns' new i; cbn [insert_walk]; [easy|].
  destruct (at_ ns i) as [n|]; cbn [bind]; [|easy]. destruct (n_next n) as [j|]; [apply IH|].
  destruct (put_next ns i (Some new)) as [ns1|] eqn:E; cbn [bind]; [|easy].
  intros H. apply put_prev_length in H. apply put_next_length in E. congruence.
Qed.

Lemma insertNode_length (m m' : umap) i :
  insertNode hash m i = Done m' ->
  length (nodes m') = length (nodes m) /\ length (buckets m') = length (buckets m).
Proof.
  unfold insertNode. destruct (at_ (nodes m) i) as [n|]; cbn [bind]; [|easy].
  destruct (computeBucketIndex hash m (n_key n)) as [b|]; cbn [bind]; [|easy].
  destruct (at_ (buckets m) b) as [[f|]|]; cbn [bind]; [| |easy].
  - destruct (insert_walk _ _ _ _) as [ns|] eqn:E; cbn [bind]; [|easy]. intros [= <-].
    apply insert_walk_length in E. rewrite set_nth_length in E. easy.
  - intros [= <-]. cbn. rewrite !set_nth_length. easy.
Qed.

Lemma rehash_loop_length t : forall i (m m' : umap),
  rehash_loop hash t i m = Done m' ->
  length (nodes m') = length (nodes m) /\ length (buckets m') = length (buckets m).
Proof.
  induction t as [|t IH]; intros i m m'; cbn [rehash_loop].
  - now intros [= <-].
  - destruct (insertNode hash m i) as [m1|] eqn:E; cbn [bind]; [|easy]. intros H.
    apply insertNode_length in E. apply IH in H. intuition congruence.
Qed.

Lemma unlink_length (m m' : umap) i :
  unlink m i = Done m' ->
  length (nodes m') = length (nodes m) /\ length (buckets m') = length (buckets m).
Proof.
  unfold unlink. destruct (at_ (nodes m) i) as [e|]; cbn [bind]; [|easy].
  destruct (n_bucket e) as [b|]; [|easy].
  destruct (at_ (buckets m) b) as [h|]; cbn [bind]; [|easy].
  match goal with |- context [bind ?x _] => destruct x as [m1|] eqn:E1 end; cbn [bind]; [|easy].
  assert (H1 : length (nodes m1) = length (nodes m) /\ length (buckets m1) = length (buckets m)).
  { destruct (n_prev e) as [p|].
    - destruct (assert_ _) as [[]|]; cbn [bind] in E1; [|easy].
      destruct (put_next _ _ _) as [ns|] eqn:E; cbn [bind] in E1; [|easy]. injection E1 as <-.
      apply put_next_length in E. easy.
    - destruct (assert_ _) as [[]|]; cbn [bind] in E1; [|easy]. injection E1 as <-. cbn.
      now rewrite set_nth_length. }
  destruct (at_ (nodes m1) i) as [e1|]; cbn [bind]; [|easy].
  match goal with |- context [bind ?x _] => destruct x as [ns2|] eqn:E2 end; cbn [bind]; [|easy].
  assert (H2 : length ns2 = length (nodes m1)).
  { destruct (n_next e1); [now apply put_prev_length in E2|]. now injection E2 as <-. }
  destruct (put_prev ns2 i None) as [ns3|] eqn:E3; cbn [bind]; [|easy].
  destruct (put_next ns3 i None) as [ns4|] eqn:E4; cbn [bind]; [|easy].
  intros [= <-]. cbn. apply put_prev_length in E3. apply put_next_length in E4. lia.
Qed.

Lemma relocate_length (m m' : umap) i :
  relocate m i = Done m' ->
  length (nodes m') = length (nodes m) /\ length (buckets m') = length (buckets m).
Proof.
  unfold relocate. destruct (length (nodes m)) as [|last] eqn:El; [easy|].
  destruct (i =? last); [intros [= <-]; easy|].
  destruct (at_ (nodes m) last) as [l|]; cbn [bind]; [|easy].
  match goal with |- context [bind ?x _] => destruct x as [m1|] eqn:E1 end; cbn [bind]; [|easy].
  assert (H1 : length (nodes m1) = length (nodes m) /\ length (buckets m1) = length (buckets m)).
  { destruct (n_prev l) as [p|].
    - destruct (put_next _ _ _) as [ns|] eqn:E; cbn [bind] in E1; [|easy]. injection E1 as <-.
      apply put_next_length in E. easy.
    - destruct (n_bucket l) as [b|]; [|easy].
      destruct (at_ (buckets m) b); cbn [bind] in E1; [|easy]. injection E1 as <-. cbn.
      now rewrite set_nth_length. }
  unfold swap_nodes.
  destruct (at_ (nodes m1) i) as [a|]; cbn [bind]; [|easy].
  destruct (at_ (nodes m1) last) as [b|]; cbn [bind]; [|easy].
  intros [= <-]. cbn. rewrite !set_nth_length. lia.
Qed.

Lemma erase_length (m m' : umap) k :
  erase keqb hash m k = Done m' ->
  length (nodes m') <= length (nodes m) /\ length (buckets m') = length (buckets m).
Proof.
  unfold erase. destruct (findNodeIndex keqb hash m k) as [[i|]|]; cbn [bind]; [|intros [= <-]; lia|easy].
  destruct (unlink m i) as [m1|] eqn:E1; cbn [bind]; [|easy].
  destruct (relocate m1 i) as [m2|] eqn:E2; cbn [bind]; [|easy].
  apply unlink_length in E1. apply relocate_length in E2. unfold pop_node.
  destruct (length (nodes m2)) as [|last] eqn:El; [easy|].
  destruct (at_ (nodes m2) last) as [l|]; cbn [bind]; [|easy].
  destruct (assert_ _) as [[]|]; cbn [bind]; [|easy].
  destruct (assert_ _) as [[]|]; cbn [bind]; [|easy].
  intros [= <-]. cbn. rewrite firstn_length. lia.
Qed.

(** Below 2^24 buckets the comparison of the rounded quotient is exact. *)
Lemma rnd24_large z : (2 ^ 24 <= z)%Z -> (2 ^ 24 <= rnd24 z)%Z.
Proof.
  intros H. unfold rnd24. destruct (Z.ltb_spec z (2 ^ 24)); [lia|].
  assert (Hl : (24 <= Z.log2 z)%Z).
  { change 24%Z with (Z.log2 (2 ^ 24)). now apply Z.log2_le_mono. }
  set (e := (Z.log2 z - 23)%Z).
  assert (He : (2 <= 2 ^ e)%Z).
  { change 2%Z with (2 ^ 1)%Z at 1. apply Z.pow_le_mono_r; lia. }
  assert (Hq : (2 ^ 23 <= z / 2 ^ e)%Z).
  { apply Z.div_le_lower_bound; [lia|].
    rewrite <- Z.pow_add_r by lia. replace (e + 23)%Z with (Z.log2 z) by lia.
    apply Z.log2_spec. lia. }
  destruct (_ || _); nia.
Qed.

Lemma load_exceeds_false n w :
  load_exceeds n w = false -> n <= w \/ (2 ^ 24 <= Z.of_nat w)%Z.
Proof.
  intros H. unfold load_exceeds in H. apply Z.ltb_ge in H.
  destruct (Z.leb_spec (2 ^ 24) (Z.of_nat w)) as [Hw|Hw]; [now right|]. left.
  assert (Rw : rnd24 (Z.of_nat w) = Z.of_nat w).
  { unfold rnd24. destruct (Z.ltb_spec (Z.of_nat w) (2 ^ 24)); [easy|lia]. }
  rewrite Rw in H. destruct (Z.ltb_spec (Z.of_nat n) (2 ^ 24)) as [Hn|Hn].
  - assert (Rn : rnd24 (Z.of_nat n) = Z.of_nat n).
    { unfold rnd24. destruct (Z.ltb_spec (Z.of_nat n) (2 ^ 24)); [easy|lia]. }
    rewrite Rn in H. lia.
  - apply rnd24_large in Hn. lia.
Qed.

Definition at_most_full (m : umap) : Prop :=
  0 < length (buckets m) /\
  (length (nodes m) <= length (buckets m) \/ (2 ^ 24 <= Z.of_nat (length (buckets m)))%Z).

Lemma step_load (m m' : umap) o : at_most_full m -> step keqb hash m o = Done m' -> at_most_full m'.
Proof.
  intros [Hp Hf]. unfold at_most_full in *. destruct o as [k v|k|]; cbn [step].
  - unfold insertOrAssign.
    destruct (findNodeIndex keqb hash m k) as [[i|]|]; cbn [bind]; [| |easy].
    + destruct (at_ (nodes m) i) as [n|]; cbn [bind]; [|easy]. intros [= <-]. cbn [nodes buckets].
      rewrite set_nth_length. easy.
    + destruct (load_exceeds (S (length (nodes m))) (length (buckets m))) eqn:El.
      * destruct (rehash hash m (length (nodes m) * 2)) as [m1|] eqn:E1; cbn [bind]; [|easy].
        intros E. apply insertNode_length in E. cbn [nodes buckets] in E. rewrite app_length in E.
        cbn [length] in E. unfold rehash in E1. apply rehash_loop_length in E1. cbn [nodes buckets] in E1.
        rewrite repeat_length in E1. apply load_exceeds_nonzero in El; [|easy]. lia.
      * cbn [bind]. intros E. apply insertNode_length in E. cbn [nodes buckets] in E.
        rewrite app_length in E. cbn [length] in E. split; [lia|].
        apply load_exceeds_false in El. lia.
  - intros E. apply erase_length in E. lia.
  - intros [= <-]. unfold clear. cbn [nodes buckets length]. rewrite repeat_length. lia.
Qed.

Lemma run_load (h : list op) : forall m m',
  at_most_full m -> run_from (step keqb hash) m h = Done m' -> at_most_full m'.
Proof.
  induction h as [|o h IH]; intros m m' Hm; cbn [run_from]; [now intros [= <-]|].
  destruct (step keqb hash m o) as [m1|] eqn:E; cbn [bind]; [|easy].
  apply IH. eapply step_load; eauto.
Qed.
End More.
