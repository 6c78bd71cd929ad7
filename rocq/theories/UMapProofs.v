(** Correctness of the hash map. *)
From Coq Require Import Ascii String NArith ZArith Bool PeanoNat Lia List.
Import ListNotations.
From Verif Require Import Util Base UMap UMapSpec.

(** * Lists *)

Lemma set_nth_length {A} (l : list A) i x : length (set_nth l i x) = length l.
Proof. revert i. induction l as [|y l IH]; intros [|i]; cbn; auto. Qed.

Lemma set_nth_same {A} (l : list A) i x y :
  nth_error l i = Some y -> nth_error (set_nth l i x) i = Some x.
Proof. revert i. induction l as [|z l IH]; intros [|i]; cbn; try easy. apply IH. Qed.

Lemma set_nth_other {A} (l : list A) i j x :
  i <> j -> nth_error (set_nth l i x) j = nth_error l j.
Proof.
  revert i j. induction l as [|z l IH]; intros [|i] [|j] H; cbn; try easy.
  apply IH. lia.
Qed.

Lemma set_nth_none {A} (l : list A) i x :
  nth_error l i = None -> set_nth l i x = l.
Proof. revert i. induction l as [|z l IH]; intros [|i]; cbn; try easy. intros H. now rewrite IH. Qed.

Lemma map_set_nth {A B} (f : A -> B) (l : list A) i x y :
  nth_error l i = Some y -> f x = f y -> map f (set_nth l i x) = map f l.
Proof.
  revert i. induction l as [|z l IH]; intros [|i]; cbn; try easy.
  - intros [= ->] ->. easy.
  - intros H E. f_equal. now apply IH.
Qed.

Lemma nth_error_lt {A} (l : list A) i x : nth_error l i = Some x -> i < length l.
Proof. intros H. apply nth_error_Some. congruence. Qed.

Lemma at_some {A} (l : list A) i x : nth_error l i = Some x -> at_ l i = Done x.
Proof. unfold at_. now intros ->. Qed.

Lemma at_done {A} (l : list A) i x : at_ l i = Done x -> nth_error l i = Some x.
Proof. unfold at_. destruct (nth_error l i); now intros [= ->]. Qed.

Lemma NoDup_app_snoc {A} (l : list A) x : NoDup l -> ~ In x l -> NoDup (l ++ [x]).
Proof.
  intros H Hx. apply NoDup_rev in H. rewrite <- (rev_involutive (l ++ [x])). apply NoDup_rev.
  rewrite rev_app_distr. cbn. constructor; [|easy]. now rewrite <- in_rev.
Qed.

Fixpoint last_opt {A} (l : list A) : option A :=
  match l with
  | [] => None
  | [x] => Some x
  | _ :: r => last_opt r
  end.

Lemma last_opt_snoc {A} (l : list A) x : last_opt (l ++ [x]) = Some x.
Proof.
  induction l as [|y l IH]; [easy|]. cbn [app last_opt].
  destruct (l ++ [x]) eqn:E; [now destruct l|]. exact IH.
Qed.

Lemma list_snoc {A} (l : list A) : l = [] \/ exists l0 x, l = l0 ++ [x].
Proof. destruct l as [|a l0] using rev_ind; eauto. Qed.

Section Proofs.
Context {K V : Type}.
Variable keqb : K -> K -> bool.
Variable hash : K -> Z.
Hypothesis keqb_spec : forall a b, reflect (a = b) (keqb a b).

Notation node := (node K V).
Notation umap := (umap K V).

Definition bidx (w : nat) (k : K) : nat := Z.to_nat (hash k mod Z.of_nat w)%Z.

Lemma bidx_lt w k : 0 < w -> bidx w k < w.
Proof. intros H. unfold bidx. pose proof (Z.mod_pos_bound (hash k) (Z.of_nat w)). lia. Qed.

Lemma collide_bidx w a b : 0 < w -> collide hash w a b = (bidx w b =? bidx w a).
Proof.
  intros H. unfold collide, bidx.
  pose proof (Z.mod_pos_bound (hash a) (Z.of_nat w)).
  pose proof (Z.mod_pos_bound (hash b) (Z.of_nat w)).
  destruct (Z.eqb_spec (hash a mod Z.of_nat w) (hash b mod Z.of_nat w)),
    (Nat.eqb_spec (Z.to_nat (hash b mod Z.of_nat w)) (Z.to_nat (hash a mod Z.of_nat w))); lia.
Qed.

Lemma compute_bucket (m : umap) k :
  0 < length (buckets m) -> computeBucketIndex hash m k = Done (bidx (length (buckets m)) k).
Proof. intros H. unfold computeBucketIndex, bidx. destruct (length (buckets m)); [lia|easy]. Qed.

(** * Doubly linked chains

    [st] holds for the keys whose back link may be wrong. *)
Fixpoint dll (ns : list node) (b : nat) (st : K -> Prop) (p : option nat) (l : list nat)
         (nx : option nat) : Prop :=
  match l with
  | [] => True
  | i :: r =>
      exists n, nth_error ns i = Some n /\ n_bucket n = Some b /\
        n_next n = (match r with [] => nx | j :: _ => Some j end) /\
        (~ st (n_key n) -> n_prev n = p) /\
        dll ns b st (Some i) r nx
  end.

Definition hd_or (l : list nat) (o : option nat) : option nat :=
  match l with [] => o | x :: _ => Some x end.
Definition last_or (l : list nat) (o : option nat) : option nat :=
  match last_opt l with None => o | Some x => Some x end.

Lemma last_or_cons x l o : last_or (x :: l) o = last_or l (Some x).
Proof. unfold last_or. destruct l as [|y l]; [easy|]. cbn [last_opt]. 
  assert (H : last_opt (y :: l) <> None).
  { clear. revert y. induction l as [|z l IH]; intros y; cbn; [easy|]. apply IH. }
  change (match last_opt (y :: l) with Some a => Some a | None => o end =
          match last_opt (y :: l) with Some a => Some a | None => Some x end).
  destruct (last_opt (y :: l)); easy. Qed.

Lemma last_or_snoc l x o : last_or (l ++ [x]) o = Some x.
Proof. unfold last_or. now rewrite last_opt_snoc. Qed.

Lemma dll_app ns b st p l1 l2 nx :
  dll ns b st p (l1 ++ l2) nx <->
  dll ns b st p l1 (hd_or l2 nx) /\ dll ns b st (last_or l1 p) l2 nx.
Proof.
  revert p. induction l1 as [|i l1 IH]; intros p.
  - cbn. tauto.
  - cbn [app dll]. rewrite last_or_cons. split.
    + intros (n & H1 & H2 & H3 & H4 & H5). apply IH in H5. destruct H5 as [H5 H6].
      split; [|easy]. exists n. repeat split; try easy.
      rewrite H3. destruct l1; [|easy]. cbn. now destruct l2.
    + intros [(n & H1 & H2 & H3 & H4 & H5) H6]. exists n. repeat split; try easy.
      * rewrite H3. destruct l1; [|easy]. cbn. now destruct l2.
      * apply IH. easy.
Qed.

(** Only the nodes of the chain matter. *)
Lemma dll_frame ns ns' b (st st' : K -> Prop) p l nx :
  (forall i n, In i l -> nth_error ns i = Some n ->
     nth_error ns' i = Some n \/
     exists n', nth_error ns' i = Some n' /\ n_key n' = n_key n /\ n_bucket n' = n_bucket n /\
       n_next n' = n_next n /\ n_prev n' = n_prev n) ->
  (forall i n, In i l -> nth_error ns i = Some n -> st (n_key n) -> st' (n_key n)) ->
  dll ns b st p l nx -> dll ns' b st' p l nx.
Proof.
  revert p. induction l as [|i l IH]; intros p Hn Hst; [easy|].
  cbn [dll]. intros (n & H1 & H2 & H3 & H4 & H5).
  assert (H5' : dll ns' b st' (Some i) l nx).
  { apply IH; [| |easy]; intros j n0 Hj; [apply Hn|apply Hst]; now right. }
  assert (Hs : ~ st' (n_key n) -> ~ st (n_key n)).
  { intros H H'. apply H. apply (Hst i); [now left|easy|easy]. }
  destruct (Hn i n (or_introl eq_refl) H1) as [E|(n' & E & E1 & E2 & E3 & E4)].
  - exists n. repeat split; try easy. auto.
  - exists n'. rewrite E1, E2, E3, E4. repeat split; try easy. auto.
Qed.

Lemma dll_same ns ns' b (st st' : K -> Prop) p l nx :
  (forall i, In i l -> nth_error ns' i = nth_error ns i) ->
  (forall i n, In i l -> nth_error ns i = Some n -> st (n_key n) -> st' (n_key n)) ->
  dll ns b st p l nx -> dll ns' b st' p l nx.
Proof.
  intros H Hs. apply dll_frame; [|easy]. intros i n Hi E. left. now rewrite H.
Qed.

(** Change the next link of the last element. *)
Lemma dll_put_next ns b st p l q nx nx' n :
  NoDup (l ++ [q]) -> dll ns b st p (l ++ [q]) nx ->
  nth_error ns q = Some n ->
  dll (set_nth ns q (set_next n nx')) b st p (l ++ [q]) nx'.
Proof.
  intros Hd H Hq. apply dll_app in H. destruct H as [H1 H2]. apply dll_app. split.
  - cbn [hd_or] in *. eapply dll_same; [| |exact H1]; [|auto].
    intros i Hi. apply set_nth_other. intros ->.
    apply NoDup_remove_2 in Hd. apply Hd. rewrite app_nil_r. easy.
  - cbn [dll] in *. destruct H2 as (n0 & E & H3 & H4 & H5 & _).
    rewrite Hq in E. injection E as <-.
    exists (set_next n nx'). rewrite (set_nth_same _ _ _ _ Hq). easy.
Qed.

(** Change the back link of the first element. *)
Lemma dll_put_prev ns b (st : K -> Prop) p p' q l nx n (st' : K -> Prop) :
  NoDup (q :: l) -> dll ns b st p (q :: l) nx ->
  nth_error ns q = Some n ->
  (forall i n', In i l -> nth_error ns i = Some n' -> st (n_key n') -> st' (n_key n')) ->
  dll (set_nth ns q (set_prev n p')) b st' p' (q :: l) nx.
Proof.
  intros Hd H Hq Hst. cbn [dll] in *. destruct H as (n0 & E & H3 & H4 & H5 & H6).
  rewrite Hq in E. injection E as <-.
  exists (set_prev n p'). rewrite (set_nth_same _ _ _ _ Hq). repeat split; try easy.
  eapply dll_same; [| |exact H6].
  - intros i Hi. apply set_nth_other. intros ->. inversion Hd; easy.
  - exact Hst.
Qed.

Lemma dll_nth ns b st p l nx i :
  dll ns b st p l nx -> In i l -> exists n, nth_error ns i = Some n /\ n_bucket n = Some b.
Proof.
  revert p. induction l as [|j l IH]; intros p; [easy|].
  cbn [dll]. intros (n & H1 & H2 & _ & _ & H5) [<-|Hi]; eauto.
Qed.

(** * Well-formed maps

    [lk] selects the nodes that are linked. *)
Record wf (m : umap) (ch : nat -> list nat) (lk : nat -> Prop) (st : K -> Prop) : Prop := WF {
  wf_pos : 0 < length (buckets m);
  wf_head : forall b, b < length (buckets m) ->
              nth_error (buckets m) b = Some (hd_error (ch b));
  wf_keys : forall i j n n', nth_error (nodes m) i = Some n -> nth_error (nodes m) j = Some n' ->
              n_key n = n_key n' -> i = j;
  wf_nodup : forall b, NoDup (ch b);
  wf_mem : forall b i, In i (ch b) <->
              lk i /\ exists n, nth_error (nodes m) i = Some n /\
                                b = bidx (length (buckets m)) (n_key n);
  wf_link : forall b, dll (nodes m) b st None (ch b) None
}.

Lemma hd_or_none l : hd_or l None = hd_error l.
Proof. now destruct l. Qed.

Lemma chain_bound m ch lk st b :
  wf m ch lk st -> length (ch b) <= length (nodes m).
Proof.
  intros W. rewrite <- (seq_length (length (nodes m)) 0).
  apply NoDup_incl_length; [apply (wf_nodup _ _ _ _ W)|].
  intros i Hi. apply (wf_mem _ _ _ _ W) in Hi. destruct Hi as (_ & n & Hn & _).
  apply nth_error_lt in Hn. apply in_seq. lia.
Qed.

(** ** Lookup *)

Lemma find_walk_dll ns b st k :
  forall l p fuel, dll ns b st p l None -> length l <= fuel ->
  (exists i n, In i l /\ nth_error ns i = Some n /\ n_key n = k /\
      find_walk keqb fuel ns k (hd_error l) = Done (Some i)) \/
  ((forall i n, In i l -> nth_error ns i = Some n -> n_key n <> k) /\
      find_walk keqb fuel ns k (hd_error l) = Done None).
Proof.
  induction l as [|i l IH]; intros p fuel H Hf.
  - right. split; [easy|]. now destruct fuel.
  - cbn [length] in Hf. destruct fuel as [|fuel]; [lia|].
    cbn [dll] in H. destruct H as (n & H1 & H2 & H3 & H4 & H5).
    cbn [hd_error find_walk]. rewrite (at_some _ _ _ H1). cbn [bind].
    destruct (keqb_spec (n_key n) k) as [E|E].
    + left. exists i, n. repeat split; try easy. now left.
    + assert (Hn : n_next n = hd_error l) by (rewrite H3; now destruct l).
      rewrite Hn. destruct (IH _ fuel H5) as [(j & n' & Hj & E1 & E2 & E3)|[E1 E2]]; [lia| |].
      * left. exists j, n'. repeat split; try easy. now right.
      * right. split; [|easy]. intros j n' [<-|Hj] E3; [congruence|]. now apply (E1 j).
Qed.

Lemma find_index m ch st k :
  wf m ch (fun _ => True) st ->
  (exists i n, findNodeIndex keqb hash m k = Done (Some i) /\
      nth_error (nodes m) i = Some n /\ n_key n = k) \/
  (findNodeIndex keqb hash m k = Done None /\
      forall i n, nth_error (nodes m) i = Some n -> n_key n <> k).
Proof.
  intros W. unfold findNodeIndex. pose proof (wf_pos _ _ _ _ W) as Hp.
  rewrite compute_bucket by easy. cbn [bind].
  set (b := bidx (length (buckets m)) k).
  rewrite (at_some _ _ _ (wf_head _ _ _ _ W b (bidx_lt _ k Hp))). cbn [bind].
  destruct (find_walk_dll (nodes m) b st k (ch b) None (S (length (nodes m))))
    as [(i & n & Hi & E1 & E2 & E3)|[E1 E2]].
  - apply (wf_link _ _ _ _ W).
  - apply le_S. eapply chain_bound. exact W.
  - left. exists i, n. easy.
  - right. split; [easy|]. intros i n Hn E. apply (E1 i n); try easy.
    apply (wf_mem _ _ _ _ W). split; [easy|]. exists n. subst k. easy.
Qed.

(** ** Insertion *)

Lemma insert_walk_dll ns b st new :
  forall l p fuel i, dll ns b st p (i :: l) None -> length (i :: l) <= fuel ->
  exists q n, last_opt (i :: l) = Some q /\ nth_error ns q = Some n /\
    insert_walk fuel ns new i =
      (put_prev (set_nth ns q (set_next n (Some new))) new (Some q)).
Proof.
  induction l as [|j l IH]; intros p fuel i H Hf; cbn [length] in Hf;
    (destruct fuel as [|fuel]; [lia|]); cbn [dll] in H;
    destruct H as (n & H1 & H2 & H3 & H4 & H5); cbn [insert_walk];
    rewrite (at_some _ _ _ H1); cbn [bind]; rewrite H3.
  - exists i, n. split; [easy|]. split; [easy|].
    unfold put_next. rewrite (at_some _ _ _ H1). easy.
  - destruct (IH _ fuel j H5) as (q & n' & E1 & E2 & E3); [cbn; lia|].
    exists q, n'. split; [exact E1|]. easy.
Qed.

Definition upd {A} (f : nat -> A) (b : nat) (x : A) : nat -> A :=
  fun c => if c =? b then x else f c.

Lemma upd_same {A} (f : nat -> A) b x : upd f b x b = x.
Proof. unfold upd. now rewrite Nat.eqb_refl. Qed.
Lemma upd_other {A} (f : nat -> A) b x c : c <> b -> upd f b x c = f c.
Proof. unfold upd. intros H. destruct (Nat.eqb_spec c b); easy. Qed.

(** The key/value pairs in node order. *)
Definition pairs (ns : list node) : list (K * V) := map (fun n => (n_key n, n_val n)) ns.

Lemma pairs_nth ns i n : nth_error ns i = Some n -> nth_error (pairs ns) i = Some (n_key n, n_val n).
Proof. intros H. unfold pairs. now rewrite nth_error_map, H. Qed.

Lemma pairs_inv ns i k v :
  nth_error (pairs ns) i = Some (k, v) ->
  exists n, nth_error ns i = Some n /\ n_key n = k /\ n_val n = v.
Proof.
  unfold pairs. rewrite nth_error_map. destruct (nth_error ns i) as [n|]; [|easy].
  cbn. intros [= <- <-]. eauto.
Qed.

Lemma pairs_eq_nth ns ns' i n :
  pairs ns = pairs ns' -> nth_error ns i = Some n ->
  exists n', nth_error ns' i = Some n' /\ n_key n' = n_key n /\ n_val n' = n_val n.
Proof. intros E H. apply pairs_nth in H. rewrite E in H. now apply pairs_inv. Qed.

Lemma pairs_length ns : length (pairs ns) = length ns.
Proof. apply map_length. Qed.

Lemma pairs_eq_length (ns ns' : list node) : pairs ns = pairs ns' -> length ns = length ns'.
Proof. intros H. rewrite <- (pairs_length ns), H. apply pairs_length. Qed.

Lemma pairs_set_nth ns i n n' :
  nth_error ns i = Some n -> n_key n' = n_key n -> n_val n' = n_val n ->
  pairs (set_nth ns i n') = pairs ns.
Proof. intros H E1 E2. eapply map_set_nth; [exact H|]. now rewrite E1, E2. Qed.

Lemma insert_node m ch (lk : nat -> Prop) (st : K -> Prop) new n :
  wf m ch lk st -> ~ lk new -> nth_error (nodes m) new = Some n -> ~ st (n_key n) ->
  let b := bidx (length (buckets m)) (n_key n) in
  exists m', insertNode hash m new = Done m' /\
    length (buckets m') = length (buckets m) /\
    pairs (nodes m') = pairs (nodes m) /\
    wf m' (upd ch b (ch b ++ [new])) (fun i => lk i \/ i = new) st.
Proof.
  intros W Hlk Hn Hst b. pose proof (wf_pos _ _ _ _ W) as Hp.
  assert (Hb : b < length (buckets m)) by now apply bidx_lt.
  unfold insertNode. rewrite (at_some _ _ _ Hn). cbn [bind].
  rewrite compute_bucket by easy. cbn [bind]. fold b.
  rewrite (at_some _ _ _ (wf_head _ _ _ _ W b Hb)). cbn [bind].
  set (n1 := Node (n_key n) (n_val n) (Some b) None None).
  set (ns := set_nth (nodes m) new n1).
  assert (Hns_new : nth_error ns new = Some n1) by (eapply set_nth_same; exact Hn).
  assert (Hns : forall i, i <> new -> nth_error ns i = nth_error (nodes m) i).
  { intros i Hi. apply set_nth_other; auto. }
  assert (Hpairs : pairs ns = pairs (nodes m)) by (eapply pairs_set_nth; [exact Hn|easy|easy]).
  assert (Hnew : forall c, ~ In new (ch c)).
  { intros c Hc. apply (wf_mem _ _ _ _ W) in Hc. easy. }
  assert (Hlen : length ns = length (nodes m)) by apply set_nth_length.
  assert (Hdll : forall c, dll ns c st None (ch c) None).
  { intros c. eapply dll_same; [| |apply (wf_link _ _ _ _ W c)]; [|auto].
    intros i Hi. apply Hns. intros ->. now apply (Hnew c). }
  (* facts common to both cases *)
  assert (Fin : forall bs ns', length bs = length (buckets m) -> pairs ns' = pairs ns ->
     (forall c, c < length bs -> nth_error bs c = Some (hd_error (upd ch b (ch b ++ [new]) c))) ->
     (forall c, dll ns' c st None (upd ch b (ch b ++ [new]) c) None) ->
     wf (UMap bs ns') (upd ch b (ch b ++ [new])) (fun i => lk i \/ i = new) st).
  { intros bs ns' Hbs Hpr Hhd Hdl.
    assert (Hpr' : pairs ns' = pairs (nodes m)) by congruence.
    constructor; cbn [buckets nodes].
    - lia.
    - exact Hhd.
    - intros i j x x' Hx Hx' E.
      destruct (pairs_eq_nth _ _ _ _ Hpr' Hx) as (y & Hy & Ky & _).
      destruct (pairs_eq_nth _ _ _ _ Hpr' Hx') as (y' & Hy' & Ky' & _).
      apply (wf_keys _ _ _ _ W i j y y'); congruence.
    - intros c. destruct (Nat.eq_dec c b) as [->|Hc].
      + rewrite upd_same. apply NoDup_app_snoc; [apply (wf_nodup _ _ _ _ W)|apply Hnew].
      + rewrite upd_other by easy. apply (wf_nodup _ _ _ _ W).
    - intros c i. rewrite Hbs. split.
      + destruct (Nat.eq_dec c b) as [->|Hc].
        * rewrite upd_same, in_app_iff. intros [Hi|[<-|[]]].
          -- apply (wf_mem _ _ _ _ W) in Hi. destruct Hi as (Hl & x & Hx & ->).
             split; [now left|]. destruct (pairs_eq_nth _ _ _ _ (eq_sym Hpr') Hx) as (y & Hy & Ky & _).
             exists y. now rewrite Ky.
          -- split; [now right|]. destruct (pairs_eq_nth _ _ _ _ (eq_sym Hpr') Hn) as (y & Hy & Ky & _).
             exists y. now rewrite Ky.
        * rewrite upd_other by easy. intros Hi.
          apply (wf_mem _ _ _ _ W) in Hi. destruct Hi as (Hl & x & Hx & ->).
          split; [now left|]. destruct (pairs_eq_nth _ _ _ _ (eq_sym Hpr') Hx) as (y & Hy & Ky & _).
          exists y. now rewrite Ky.
      + intros [Hl (x & Hx & ->)].
        destruct (pairs_eq_nth _ _ _ _ Hpr' Hx) as (y & Hy & Ky & _).
        destruct Hl as [Hl| ->].
        * assert (Hi : In i (ch (bidx (length (buckets m)) (n_key x)))).
          { apply (wf_mem _ _ _ _ W). split; [easy|]. exists y. now rewrite Ky. }
          destruct (Nat.eq_dec (bidx (length (buckets m)) (n_key x)) b) as [E|E].
          -- rewrite E in *. rewrite upd_same. apply in_app_iff. now left.
          -- now rewrite upd_other.
        * rewrite Hn in Hy. injection Hy as <-. rewrite <- Ky. fold b. rewrite upd_same.
          apply in_app_iff. right. now left.
    - exact Hdl. }
  destruct (ch b) as [|first rest] eqn:Ech.
  - (* empty bucket *)
    exists (UMap (set_nth (buckets m) b (Some new)) ns). split; [easy|].
    split; [apply set_nth_length|]. split; [easy|].
    apply Fin; try easy.
    + apply set_nth_length.
    + rewrite set_nth_length. intros c Hc. destruct (Nat.eq_dec c b) as [->|Hcb].
      * rewrite upd_same. eapply set_nth_same. apply (wf_head _ _ _ _ W b Hb).
      * rewrite upd_other by easy. rewrite set_nth_other by auto. now apply (wf_head _ _ _ _ W).
    + intros c. destruct (Nat.eq_dec c b) as [->|Hcb].
      * rewrite upd_same. cbn [app dll]. exists n1. repeat split; try easy.
      * rewrite upd_other by easy. apply Hdll.
  - (* append to the chain *)
    cbn [hd_error].
    assert (Hd := Hdll b). rewrite Ech in Hd.
    pose proof (chain_bound _ _ _ _ b W) as Hbound. rewrite Ech in Hbound.
    destruct (insert_walk_dll ns b st new rest None (S (length ns)) first Hd) as (q & nq & E1 & E2 & E3);
      [lia|].
    rewrite E3.
    destruct (list_snoc (first :: rest)) as [?|(l0 & q' & El)]; [easy|].
    rewrite El, last_opt_snoc in E1. injection E1 as ->.
    assert (Hqn : q <> new).
    { intros ->. apply (Hnew b). rewrite Ech, El. apply in_app_iff. right. now left. }
    set (ns1 := set_nth ns q (set_next nq (Some new))).
    assert (Hns1 : nth_error ns1 new = Some n1).
    { unfold ns1. rewrite set_nth_other by easy. easy. }
    unfold put_prev. rewrite (at_some _ _ _ Hns1). cbn [bind].
    set (ns2 := set_nth ns1 new (set_prev n1 (Some q))).
    exists (UMap (buckets m) ns2). split; [easy|]. split; [easy|].
    assert (Hp1 : pairs ns1 = pairs ns) by (eapply pairs_set_nth; [exact E2|easy|easy]).
    assert (Hp2 : pairs ns2 = pairs ns).
    { rewrite <- Hp1. eapply pairs_set_nth; [exact Hns1|easy|easy]. }
    split; [cbn [nodes]; congruence|].
    apply Fin; try easy.
    + intros c Hc. destruct (Nat.eq_dec c b) as [->|Hcb].
      * rewrite upd_same. rewrite (wf_head _ _ _ _ W b Hb), Ech. easy.
      * rewrite upd_other by easy. now apply (wf_head _ _ _ _ W).
    + intros c. destruct (Nat.eq_dec c b) as [->|Hcb].
      * rewrite upd_same. rewrite El in *. apply dll_app. split.
        -- cbn [hd_or]. eapply dll_same with (ns := ns1) (st := st); [|auto|].
           ++ intros i Hi. apply set_nth_other. intros <-. apply (Hnew b). now rewrite Ech.
           ++ unfold ns1. eapply dll_put_next; [|exact Hd|exact E2].
              rewrite <- Ech. apply (wf_nodup _ _ _ _ W).
        -- cbn [dll]. exists (set_prev n1 (Some q)). unfold ns2.
           rewrite (set_nth_same _ _ _ _ Hns1). rewrite last_or_snoc. repeat split; try easy.
      * rewrite upd_other by easy. eapply dll_same; [| |apply Hdll]; [|auto].
        intros i Hi. unfold ns2, ns1. rewrite set_nth_other, set_nth_other; [easy| |].
        -- intros <-.
           assert (Hq1 : In q (ch b)) by (rewrite Ech, El; apply in_app_iff; right; now left).
           apply (wf_mem _ _ _ _ W) in Hq1, Hi.
           destruct Hq1 as (_ & x & Hx & Ex). destruct Hi as (_ & y & Hy & Ey). congruence.
        -- intros <-. now apply (Hnew c).
Qed.

Lemma wf_ext m ch (lk lk' : nat -> Prop) (st st' : K -> Prop) :
  (forall i, i < length (nodes m) -> (lk i <-> lk' i)) ->
  (forall i n, nth_error (nodes m) i = Some n -> st (n_key n) -> st' (n_key n)) ->
  wf m ch lk st -> wf m ch lk' st'.
Proof.
  intros Hl Hs W. destruct W as [W1 W2 W3 W4 W5 W6]. constructor; try easy.
  - intros b i. rewrite W5. split; intros [H (n & Hn & E)]; (split; [|now exists n]);
      apply (Hl i); eauto using nth_error_lt.
  - intros b. eapply dll_same; [easy| |apply W6]. intros i n _ Hn. eauto.
Qed.

(** ** Keys along the chains *)

Definition key_at (ns : list node) (i : nat) : option K := option_map n_key (nth_error ns i).

Definition ordered (m : umap) (ch : nat -> list nat) (ord : list K) : Prop :=
  forall b, map (key_at (nodes m)) (ch b) =
            map Some (filter (fun k => bidx (length (buckets m)) k =? b) ord).

Lemma key_at_pairs ns ns' i : pairs ns = pairs ns' -> key_at ns i = key_at ns' i.
Proof.
  intros E. unfold key_at.
  assert (H : forall l : list node,
    option_map n_key (nth_error l i) = option_map fst (nth_error (pairs l) i)).
  { intros l. unfold pairs. rewrite nth_error_map. now destruct (nth_error l i). }
  now rewrite !H, E.
Qed.

Definition nkeys (ns : list node) : list K := map n_key ns.

Lemma nkeys_pairs ns : nkeys ns = map fst (pairs ns).
Proof. unfold nkeys, pairs. rewrite map_map. easy. Qed.

Lemma nkeys_nth ns i n : nth_error ns i = Some n -> nth_error (nkeys ns) i = Some (n_key n).
Proof. intros H. unfold nkeys. now rewrite nth_error_map, H. Qed.

Lemma insert_node_ordered m ch (lk : nat -> Prop) (st : K -> Prop) new n ord :
  wf m ch lk st -> ordered m ch ord ->
  ~ lk new -> nth_error (nodes m) new = Some n -> ~ st (n_key n) ->
  exists m' ch', insertNode hash m new = Done m' /\
    length (buckets m') = length (buckets m) /\
    pairs (nodes m') = pairs (nodes m) /\
    wf m' ch' (fun i => lk i \/ i = new) st /\
    ordered m' ch' (ord ++ [n_key n]).
Proof.
  intros W O Hl Hn Hs.
  destruct (insert_node m ch lk st new n W Hl Hn Hs) as (m' & E & E1 & E2 & W').
  eexists _, _. split; [exact E|]. split; [easy|]. split; [easy|]. split; [exact W'|].
  intros c. rewrite E1, filter_app, map_app.
  rewrite (map_ext _ _ (fun i => key_at_pairs _ _ i E2)).
  rewrite <- (O c). cbn [filter].
  set (b := bidx (length (buckets m)) (n_key n)).
  destruct (Nat.eqb_spec b c) as [<-|Hc].
  - rewrite upd_same, map_app. f_equal. cbn. unfold key_at. now rewrite Hn.
  - rewrite upd_other by auto. cbn. now rewrite app_nil_r.
Qed.

(** ** Rehashing *)

Lemma firstn_S_nth {A} (l : list A) i x :
  nth_error l i = Some x -> firstn (S i) l = firstn i l ++ [x].
Proof.
  revert i. induction l as [|y l IH]; intros [|i] H; try easy; cbn in *.
  - now injection H as ->.
  - f_equal. now apply IH.
Qed.

Lemma rehash_loop_ok todo :
  forall i m ch, i + todo = length (nodes m) ->
  wf m ch (fun j => j < i) (fun _ => False) -> ordered m ch (firstn i (nkeys (nodes m))) ->
  exists m' ch', rehash_loop hash todo i m = Done m' /\
    length (buckets m') = length (buckets m) /\
    pairs (nodes m') = pairs (nodes m) /\
    wf m' ch' (fun _ => True) (fun _ => False) /\
    ordered m' ch' (nkeys (nodes m')).
Proof.
  induction todo as [|t IH]; intros i m ch Hi W O.
  - exists m, ch. split; [easy|]. split; [easy|]. split; [easy|]. split.
    + eapply wf_ext; [| |exact W]; [|easy]. intros j Hj. cbn. split; [easy|lia].
    + rewrite firstn_all2 in O; [easy|]. unfold nkeys. rewrite map_length. lia.
  - destruct (nth_error (nodes m) i) as [n|] eqn:Hn.
    2:{ apply nth_error_None in Hn. lia. }
    destruct (insert_node_ordered m ch _ _ i n _ W O) as (m1 & ch1 & E & E1 & E2 & W1 & O1);
      [lia|easy|easy|].
    destruct (IH (S i) m1 ch1) as (m' & ch' & F & F1 & F2 & F3 & F4).
    + rewrite (pairs_eq_length _ _ E2). lia.
    + eapply wf_ext; [| |exact W1]; [|easy]. intros j _. cbn. lia.
    + rewrite (firstn_S_nth _ _ (n_key n)).
      * rewrite nkeys_pairs, E2, <- nkeys_pairs. exact O1.
      * rewrite nkeys_pairs, E2, <- nkeys_pairs. now apply nkeys_nth.
    + exists m', ch'. cbn [rehash_loop]. rewrite E. cbn [bind].
      split; [exact F|]. split; [congruence|]. split; [congruence|]. easy.
Qed.

Lemma nth_error_repeat {A} (x : A) n i : i < n -> nth_error (repeat x n) i = Some x.
Proof. revert i. induction n as [|n IH]; intros [|i] H; cbn; try easy; try lia. apply IH. lia. Qed.

Lemma rehash_ok m ch st n :
  wf m ch (fun _ => True) st -> 0 < n ->
  exists m' ch', rehash hash m n = Done m' /\
    length (buckets m') = n /\
    pairs (nodes m') = pairs (nodes m) /\
    wf m' ch' (fun _ => True) (fun _ => False) /\
    ordered m' ch' (nkeys (nodes m')).
Proof.
  intros W Hn. unfold rehash.
  destruct (rehash_loop_ok (length (nodes m)) 0 (UMap (repeat None n) (nodes m)) (fun _ => []))
    as (m' & ch' & E & E1 & E2 & E3); [easy| | |].
  - constructor; cbn [buckets nodes].
    + now rewrite repeat_length.
    + rewrite repeat_length. intros b Hb. now apply nth_error_repeat.
    + apply (wf_keys _ _ _ _ W).
    + constructor.
    + cbn. split; [easy|]. intros [? _]. lia.
    + easy.
  - easy.
  - exists m', ch'. cbn [buckets] in E1; rewrite repeat_length in E1. easy.
Qed.

(** * insertOrAssign *)

Lemma insert_new m ch st ord k v :
  wf m ch (fun _ => True) st -> ordered m ch ord -> ~ st k ->
  (forall i n, nth_error (nodes m) i = Some n -> n_key n <> k) ->
  exists m' ch',
    insertNode hash (UMap (buckets m) (nodes m ++ [Node k v None None None])) (length (nodes m))
      = Done m' /\
    length (buckets m') = length (buckets m) /\
    pairs (nodes m') = pairs (nodes m) ++ [(k, v)] /\
    wf m' ch' (fun _ => True) st /\
    ordered m' ch' (ord ++ [k]).
Proof.
  intros W O Hs Hk.
  set (m0 := UMap (buckets m) (nodes m ++ [Node k v None None None])).
  assert (Hold : forall i, i < length (nodes m) -> nth_error (nodes m0) i = nth_error (nodes m) i).
  { intros i Hi. cbn. now apply nth_error_app1. }
  assert (Hnew : nth_error (nodes m0) (length (nodes m)) = Some (Node k v None None None)).
  { cbn. rewrite nth_error_app2 by lia. now rewrite Nat.sub_diag. }
  assert (Hin : forall b i, In i (ch b) -> i < length (nodes m)).
  { intros b i Hi. apply (wf_mem _ _ _ _ W) in Hi. destruct Hi as (_ & n & Hn & _).
    eapply nth_error_lt; exact Hn. }
  assert (Hcase : forall i n, nth_error (nodes m0) i = Some n ->
     nth_error (nodes m) i = Some n \/ (i = length (nodes m) /\ n = Node k v None None None)).
  { intros i n Hn. destruct (Nat.lt_ge_cases i (length (nodes m))) as [Hi|Hi].
    - left. now rewrite <- Hold.
    - right. pose proof (nth_error_lt _ _ _ Hn) as Hi'. cbn in Hi'. rewrite app_length in Hi'. cbn in Hi'.
      assert (i = length (nodes m)) by lia. subst i. rewrite Hnew in Hn. injection Hn as <-. easy. }
  assert (W0 : wf m0 ch (fun i => i < length (nodes m)) st).
  { destruct W as [W1 W2 W3 W4 W5 W6]. constructor.
    - exact W1.
    - exact W2.
    - intros i j n n' Hn Hn' E.
      destruct (Hcase i n Hn) as [Hi|[-> ->]], (Hcase j n' Hn') as [Hj|[-> ->]].
      + eapply W3; eauto.
      + exfalso. now apply (Hk i n).
      + exfalso. now apply (Hk j n').
      + easy.
    - exact W4.
    - intros b i. rewrite W5. change (buckets m0) with (buckets m). split.
      + intros (_ & n & Hn & E). split; [eapply nth_error_lt; exact Hn|]. exists n.
        rewrite Hold; [easy|eapply nth_error_lt; exact Hn].
      + intros (Hl & n & Hn & E). split; [easy|]. exists n. now rewrite <- Hold.
    - intros b. eapply dll_same; [| |apply W6]; [|auto].
      intros i Hi. apply Hold. now apply (Hin b). }
  assert (O0 : ordered m0 ch ord).
  { intros b. change (buckets m0) with (buckets m); rewrite <- (O b). apply map_ext_in. intros i Hi. unfold key_at.
    rewrite Hold; [easy|]. now apply (Hin b). }
  destruct (insert_node_ordered m0 ch _ st (length (nodes m)) (Node k v None None None) ord W0 O0)
    as (m' & ch' & E & E1 & E2 & E3 & E4); [lia|easy|easy|].
  exists m', ch'. split; [exact E|]. split; [exact E1|]. split.
  - rewrite E2. unfold m0, pairs. cbn [nodes]. rewrite map_app. easy.
  - split; [|exact E4]. eapply wf_ext; [| |exact E3]; [|auto].
    intros i Hi. split; [easy|]. intros _.
    rewrite (pairs_eq_length _ _ E2) in Hi. cbn in Hi. rewrite app_length in Hi. cbn in Hi. lia.
Qed.

Lemma load_exceeds_1_1 : load_exceeds 1 1 = false.
Proof. reflexivity. Qed.

(** Rounding to 24 bits is monotone and keeps positive numbers positive. *)
Lemma rnd24_mono_pos z : (0 < z)%Z -> (0 < rnd24 z)%Z.
Proof.
  intros H. unfold rnd24. destruct (Z.ltb_spec z (2 ^ 24)); [easy|].
  assert (Hl : (24 <= Z.log2 z)%Z).
  { change 24%Z with (Z.log2 (2 ^ 24)). apply Z.log2_le_mono. lia. }
  set (e := (Z.log2 z - 23)%Z).
  assert (He : (0 < 2 ^ e)%Z) by (apply Z.pow_pos_nonneg; lia).
  assert (Hq : (0 < z / 2 ^ e)%Z).
  { apply Z.div_str_pos. split; [easy|].
    apply Z.le_trans with (2 ^ Z.log2 z)%Z.
    - apply Z.pow_le_mono_r; lia.
    - apply Z.log2_spec. lia. }
  destruct (_ || _); nia.
Qed.

Lemma load_exceeds_nonzero n w : 0 < w -> load_exceeds (S n) w = true -> 0 < n.
Proof.
  intros Hw H. destruct n as [|n]; [|lia]. exfalso.
  unfold load_exceeds in H. change (rnd24 (Z.of_nat 1)) with 1%Z in H.
  apply Z.ltb_lt in H. pose proof (rnd24_mono_pos (Z.of_nat w)). lia.
Qed.

(** * erase *)

Lemma dll_split_head ns b st p p' l nx (st' : K -> Prop) :
  dll ns b st p l nx ->
  (forall i n, In i l -> nth_error ns i = Some n ->
     (st (n_key n) \/ hd_error l = Some i) -> st' (n_key n)) ->
  dll ns b st' p' l nx.
Proof.
  destruct l as [|i l]; [easy|]. cbn [dll]. intros (n & H1 & H2 & H3 & H4 & H5) Hst.
  exists n. repeat split; try easy.
  - intros H. exfalso. apply H. apply (Hst i); [now left|easy|now right].
  - eapply dll_same; [easy| |exact H5]. intros j n' Hj Hn Hs. apply (Hst j); [now right|easy|now left].
Qed.

(** After removing [i] from the middle, the rest is linked again. *)
Lemma unlink_ok m ch (st st' : K -> Prop) idx e l1 l2 :
  let b := bidx (length (buckets m)) (n_key e) in
  wf m ch (fun _ => True) st ->
  nth_error (nodes m) idx = Some e -> ~ st (n_key e) ->
  ch b = l1 ++ idx :: l2 ->
  (forall i n, nth_error (nodes m) i = Some n -> st (n_key n) ->
     i = idx \/ st' (n_key n) \/ hd_error l2 = Some i) ->
  exists m1, unlink m idx = Done m1 /\
    length (buckets m1) = length (buckets m) /\
    pairs (nodes m1) = pairs (nodes m) /\
    wf m1 (upd ch b (l1 ++ l2)) (fun i => i <> idx) st' /\
    exists e1, nth_error (nodes m1) idx = Some e1 /\ n_prev e1 = None /\ n_next e1 = None.
Proof.
  intros b W He Hs Hch Hst. pose proof (wf_pos _ _ _ _ W) as Hp.
  assert (Hb : b < length (buckets m)) by now apply bidx_lt.
  pose proof (wf_link _ _ _ _ W b) as Hd. rewrite Hch in Hd.
  pose proof (wf_nodup _ _ _ _ W b) as Hnd. rewrite Hch in Hnd.
  apply dll_app in Hd. destruct Hd as [Hd1 Hd2]. cbn [hd_or] in Hd1.
  cbn [dll] in Hd2. destruct Hd2 as (e' & He' & Heb & Hen & Hep & Hd2).
  rewrite He in He'. injection He' as <-. specialize (Hep Hs).
  assert (Hi1 : ~ In idx l1).
  { intros H. apply NoDup_remove_2 in Hnd. apply Hnd. apply in_app_iff. now left. }
  assert (Hi2 : ~ In idx l2).
  { intros H. apply NoDup_remove_2 in Hnd. apply Hnd. apply in_app_iff. now right. }
  assert (Hdisj : forall i, In i l1 -> ~ In i l2).
  { intros i H1 H2. apply NoDup_remove_1 in Hnd.
    apply in_split in H1. destruct H1 as (a & a' & ->).
    rewrite <- app_assoc in Hnd. cbn in Hnd. apply NoDup_remove_2 in Hnd. apply Hnd.
    rewrite !in_app_iff. tauto. }
  assert (Hn1 : NoDup l1).
  { clear -Hnd. induction l1 as [|x l IH]; [constructor|]. cbn in Hnd. inversion Hnd; subst.
    constructor; [|auto]. intros H. apply H1. apply in_app_iff. now left. }
  assert (Hn2 : NoDup l2).
  { clear -Hnd. induction l1 as [|x l IH]; cbn in Hnd; inversion Hnd; subst; auto. }
  assert (Hother : forall c i, c <> b -> In i (ch c) -> i <> idx /\ ~ In i l1 /\ ~ In i l2).
  { intros c i Hc Hi. apply (wf_mem _ _ _ _ W) in Hi. destruct Hi as (_ & n & Hn & E).
    assert (Hin : ~ In i (ch b)).
    { intros H. apply (wf_mem _ _ _ _ W) in H. destruct H as (_ & n' & Hn' & E'). congruence. }
    rewrite Hch in Hin. rewrite in_app_iff in Hin. cbn in Hin. split; [|split]; intuition congruence. }
  assert (Hhead : nth_error (buckets m) b = Some (hd_or l1 (Some idx))).
  { rewrite (wf_head _ _ _ _ W b Hb), Hch. now destruct l1. }
  assert (Hnext : n_next e = hd_error l2) by (rewrite Hen; now destruct l2).
  unfold unlink. rewrite (at_some _ _ _ He). cbn [bind]. rewrite Heb.
  rewrite (at_some _ _ _ Hhead). cbn [bind]. rewrite Hep.
  (* step 1: the predecessor or the bucket head *)
  assert (S1 : exists bs ns1,
    (match last_or l1 None with
     | Some p =>
         _ <- assert_ (match hd_or l1 (Some idx) with Some h => negb (h =? idx) | None => true end) ;;
         ns <- put_next (nodes m) p (n_next e) ;; Done (UMap (buckets m) ns)
     | None =>
         _ <- assert_ (match hd_or l1 (Some idx) with Some h => h =? idx | None => false end) ;;
         Done (UMap (set_nth (buckets m) b (n_next e)) (nodes m))
     end) = Done (UMap bs ns1) /\
    length bs = length (buckets m) /\
    (forall c, c <> b -> nth_error bs c = nth_error (buckets m) c) /\
    nth_error bs b = Some (hd_error (l1 ++ l2)) /\
    pairs ns1 = pairs (nodes m) /\
    (forall i, ~ In i l1 -> nth_error ns1 i = nth_error (nodes m) i) /\
    dll ns1 b st None l1 (hd_error l2)).
  { destruct (list_snoc l1) as [->|(l0 & p & ->)].
    - cbn [last_or last_opt hd_or]. rewrite Nat.eqb_refl. cbn [assert_ bind].
      eexists _, _. split; [reflexivity|]. split; [apply set_nth_length|].
      split; [intros c Hc; apply set_nth_other; auto|].
      split; [rewrite (set_nth_same _ _ _ _ Hhead); now rewrite Hnext|]. easy.
    - rewrite last_or_snoc.
      assert (Hh : exists h, hd_or (l0 ++ [p]) (Some idx) = Some h /\ In h (l0 ++ [p])).
      { destruct l0 as [|h l0]; [exists p|exists h]; cbn; split; auto. }
      destruct Hh as (h & Hh & Hhin). rewrite Hh.
      destruct (Nat.eqb_spec h idx) as [->|_]; [easy|]. cbn [negb assert_ bind].
      assert (Hpn : exists n, nth_error (nodes m) p = Some n).
      { destruct (dll_nth _ _ _ _ _ _ p Hd1) as (n & Hn & _); [|eauto].
        apply in_app_iff. right. now left. }
      destruct Hpn as (n & Hpn).
      unfold put_next. rewrite (at_some _ _ _ Hpn). cbn [bind].
      eexists _, _. split; [reflexivity|]. split; [easy|]. split; [easy|].
      split; [rewrite Hhead, Hh; destruct l0; cbn in *; congruence|].
      split; [eapply pairs_set_nth; [exact Hpn|easy|easy]|].
      split.
      + intros i Hi. apply set_nth_other. intros ->. apply Hi. apply in_app_iff. right. now left.
      + rewrite Hnext. eapply dll_put_next; [exact Hn1|exact Hd1|exact Hpn]. }
  destruct S1 as (bs & ns1 & E1 & Hbl & Hbo & Hbb & Hp1 & Hns1 & Hdl1).
  rewrite E1. cbn [bind buckets nodes]. clear E1.
  assert (He1 : nth_error ns1 idx = Some e) by (rewrite Hns1; easy).
  rewrite (at_some _ _ _ He1). cbn [bind]. rewrite Hnext, Hep.
  assert (Hd2' : dll ns1 b st (Some idx) l2 None).
  { eapply dll_same; [| |exact Hd2]; [|auto]. intros i Hi. apply Hns1. intros H. now apply (Hdisj i). }
  (* step 2: the successor *)
  assert (S2 : exists ns2,
    (match hd_error l2 with
     | Some n => put_prev ns1 n (last_or l1 None)
     | None => Done ns1
     end) = Done ns2 /\
    pairs ns2 = pairs ns1 /\
    (forall i, ~ In i l2 -> nth_error ns2 i = nth_error ns1 i) /\
    dll ns2 b st' (last_or l1 None) l2 None).
  { destruct l2 as [|q l2].
    - exists ns1. easy.
    - cbn [hd_error]. destruct (dll_nth _ _ _ _ _ _ q Hd2' (or_introl eq_refl)) as (n & Hn & _).
      unfold put_prev. rewrite (at_some _ _ _ Hn). cbn [bind].
      eexists. split; [reflexivity|]. split; [eapply pairs_set_nth; [exact Hn|easy|easy]|].
      split; [intros i Hi; apply set_nth_other; intros ->; apply Hi; now left|].
      eapply dll_put_prev; [exact Hn2|exact Hd2'|exact Hn|].
      intros i n' Hi Hn' Hsn.
      destruct (pairs_eq_nth _ _ _ _ Hp1 Hn') as (n0 & Hn0 & K0 & _).
      destruct (Hst i n0 Hn0) as [->|[H|H]].
      + now rewrite K0.
      + exfalso. apply Hi2. now right.
      + now rewrite <- K0.
      + exfalso. injection H as ->. inversion Hn2; easy. }
  destruct S2 as (ns2 & E2 & Hp2 & Hns2 & Hdl2).
  rewrite E2. cbn [bind]. clear E2.
  assert (He2 : nth_error ns2 idx = Some e) by (rewrite Hns2; easy).
  unfold put_prev at 1. rewrite (at_some _ _ _ He2). cbn [bind].
  set (ns3 := set_nth ns2 idx (set_prev e None)).
  assert (He3 : nth_error ns3 idx = Some (set_prev e None)) by (eapply set_nth_same; exact He2).
  unfold put_next. rewrite (at_some _ _ _ He3). cbn [bind].
  set (ns4 := set_nth ns3 idx (set_next (set_prev e None) None)).
  assert (He4 : nth_error ns4 idx = Some (set_next (set_prev e None) None))
    by (eapply set_nth_same; exact He3).
  assert (Hp4 : pairs ns4 = pairs (nodes m)).
  { rewrite <- Hp1, <- Hp2. transitivity (pairs ns3).
    - eapply pairs_set_nth; [exact He3|easy|easy].
    - eapply pairs_set_nth; [exact He2|easy|easy]. }
  assert (Hns4 : forall i, i <> idx -> nth_error ns4 i = nth_error ns2 i).
  { intros i Hi. unfold ns4, ns3. rewrite !set_nth_other by auto. easy. }
  eexists. split; [reflexivity|]. cbn [buckets nodes]. split; [exact Hbl|]. split; [exact Hp4|].
  split.
  2:{ eexists. split; [exact He4|]. easy. }
  constructor; cbn [buckets nodes].
  - lia.
  - intros c Hc. destruct (Nat.eq_dec c b) as [->|Hcb].
    + now rewrite upd_same.
    + rewrite upd_other by easy. rewrite Hbo by easy. apply (wf_head _ _ _ _ W). lia.
  - intros i j x x' Hx Hx' E.
    destruct (pairs_eq_nth _ _ _ _ Hp4 Hx) as (y & Hy & Ky & _).
    destruct (pairs_eq_nth _ _ _ _ Hp4 Hx') as (y' & Hy' & Ky' & _).
    apply (wf_keys _ _ _ _ W i j y y'); congruence.
  - intros c. destruct (Nat.eq_dec c b) as [->|Hcb].
    + rewrite upd_same. eapply NoDup_remove_1. exact Hnd.
    + rewrite upd_other by easy. apply (wf_nodup _ _ _ _ W).
  - intros c i. rewrite Hbl.
    assert (Hc : In i (upd ch b (l1 ++ l2) c) <-> i <> idx /\ In i (ch c)).
    { destruct (Nat.eq_dec c b) as [->|Hcb].
      - rewrite upd_same, Hch, !in_app_iff. cbn. split; [|intuition congruence].
        intros H. split; [|tauto]. intros ->. tauto.
      - rewrite upd_other by easy. split; [|tauto]. intros H. split; [|easy].
        now apply (Hother c). }
    rewrite Hc, (wf_mem _ _ _ _ W). split.
    + intros (H1 & _ & n & Hn & E). split; [easy|].
      destruct (pairs_eq_nth _ _ _ _ (eq_sym Hp4) Hn) as (y & Hy & Ky & _). exists y. now rewrite Ky.
    + intros (H1 & n & Hn & E). split; [easy|]. split; [easy|].
      destruct (pairs_eq_nth _ _ _ _ Hp4 Hn) as (y & Hy & Ky & _). exists y. now rewrite Ky.
  - intros c. destruct (Nat.eq_dec c b) as [->|Hcb].
    + rewrite upd_same. apply dll_app. split.
      * rewrite hd_or_none. eapply dll_same; [| |exact Hdl1].
        -- intros i Hi. rewrite Hns4 by (intros ->; easy). apply Hns2. now apply Hdisj.
        -- intros i n Hi Hn Hsn.
           destruct (pairs_eq_nth _ _ _ _ Hp1 Hn) as (n0 & Hn0 & K0 & _).
           destruct (Hst i n0 Hn0) as [->|[H|H]]; [now rewrite K0|easy|now rewrite <- K0|].
           exfalso. apply (Hdisj i Hi). destruct l2; [easy|]. injection H as ->. now left.
      * eapply dll_same; [| |exact Hdl2]; [|auto].
        intros i Hi. apply Hns4. intros ->. easy.
    + rewrite upd_other by easy. eapply dll_same; [| |apply (wf_link _ _ _ _ W c)].
      * intros i Hi. destruct (Hother c i Hcb Hi) as (H1 & H2 & H3).
        rewrite Hns4, Hns2, Hns1 by easy. easy.
      * intros i n Hi Hn Hsn. destruct (Hother c i Hcb Hi) as (H1 & H2 & H3).
        destruct (Hst i n Hn Hsn) as [H|[H|H]]; [easy|easy|].
        exfalso. apply H3. destruct l2; [easy|]. injection H as ->. now left.
Qed.

(** Moving the last node into the hole [idx]. *)
Lemma relocate_ok m ch (st st' : K -> Prop) idx last e L l1 l2 :
  let b := bidx (length (buckets m)) (n_key L) in
  wf m ch (fun i => i <> idx) st ->
  length (nodes m) = S last -> idx <> last ->
  nth_error (nodes m) idx = Some e -> nth_error (nodes m) last = Some L ->
  ~ st (n_key L) ->
  ch b = l1 ++ last :: l2 ->
  (forall i n, nth_error (nodes m) i = Some n ->
     st (n_key n) \/ hd_error l2 = Some i -> st' (n_key n)) ->
  exists m1, relocate m idx = Done m1 /\
    length (buckets m1) = length (buckets m) /\
    pairs (nodes m1) = set_nth (set_nth (pairs (nodes m)) idx (n_key L, n_val L)) last (n_key e, n_val e) /\
    wf m1 (upd ch b (l1 ++ idx :: l2)) (fun i => i <> last) st' /\
    nth_error (nodes m1) last = Some e /\
    (exists L1, nth_error (nodes m1) idx = Some L1 /\ n_key L1 = n_key L /\ n_next L1 = hd_error l2) /\
    (forall c, map (key_at (nodes m1)) (upd ch b (l1 ++ idx :: l2) c) = map (key_at (nodes m)) (ch c)).
Proof.
  intros b W Hlen Hil He HL Hs Hch Hst. pose proof (wf_pos _ _ _ _ W) as Hp.
  assert (Hb : b < length (buckets m)) by now apply bidx_lt.
  pose proof (wf_link _ _ _ _ W b) as Hd. rewrite Hch in Hd.
  pose proof (wf_nodup _ _ _ _ W b) as Hnd. rewrite Hch in Hnd.
  apply dll_app in Hd. destruct Hd as [Hd1 Hd2]. cbn [hd_or] in Hd1.
  cbn [dll] in Hd2. destruct Hd2 as (L' & HL' & HLb & HLn & HLp & Hd2).
  rewrite HL in HL'. injection HL' as <-. specialize (HLp Hs).
  assert (Hi1 : ~ In last l1).
  { intros H. apply NoDup_remove_2 in Hnd. apply Hnd. apply in_app_iff. now left. }
  assert (Hi2 : ~ In last l2).
  { intros H. apply NoDup_remove_2 in Hnd. apply Hnd. apply in_app_iff. now right. }
  assert (Hidx : forall c, ~ In idx (ch c)).
  { intros c H. apply (wf_mem _ _ _ _ W) in H. easy. }
  assert (Hx1 : ~ In idx l1).
  { intros H. apply (Hidx b). rewrite Hch. apply in_app_iff. now left. }
  assert (Hx2 : ~ In idx l2).
  { intros H. apply (Hidx b). rewrite Hch. apply in_app_iff. right. now right. }
  assert (Hdisj : forall i, In i l1 -> ~ In i l2).
  { intros i H1 H2. apply NoDup_remove_1 in Hnd.
    apply in_split in H1. destruct H1 as (a & a' & ->).
    rewrite <- app_assoc in Hnd. cbn in Hnd. apply NoDup_remove_2 in Hnd. apply Hnd.
    rewrite !in_app_iff. tauto. }
  assert (Hn1 : NoDup l1).
  { clear -Hnd. induction l1 as [|x l IH]; [constructor|]. cbn in Hnd. inversion Hnd; subst.
    constructor; [|auto]. intros H. apply H1. apply in_app_iff. now left. }
  assert (Hother : forall c i, c <> b -> In i (ch c) -> i <> idx /\ i <> last /\ ~ In i l1 /\ ~ In i l2).
  { intros c i Hc Hi. split; [intros ->; now apply (Hidx c)|].
    apply (wf_mem _ _ _ _ W) in Hi. destruct Hi as (_ & n & Hn & E).
    assert (Hin : ~ In i (ch b)).
    { intros H. apply (wf_mem _ _ _ _ W) in H. destruct H as (_ & n' & Hn' & E'). congruence. }
    rewrite Hch in Hin. rewrite in_app_iff in Hin. cbn in Hin. intuition congruence. }
  assert (Hhead : nth_error (buckets m) b = Some (hd_or l1 (Some last))).
  { rewrite (wf_head _ _ _ _ W b Hb), Hch. now destruct l1. }
  unfold relocate. rewrite Hlen. destruct (Nat.eqb_spec idx last) as [?|_]; [easy|].
  rewrite (at_some _ _ _ HL). cbn [bind]. rewrite HLp.
  assert (S1 : exists bs ns1,
    (match last_or l1 None with
     | Some p => ns <- put_next (nodes m) p (Some idx) ;; Done (UMap (buckets m) ns)
     | None =>
         match n_bucket L with
         | None => Fault AssertFailed
         | Some lb =>
             _ <- at_ (buckets m) lb ;;
             Done (UMap (set_nth (buckets m) lb (Some idx)) (nodes m))
         end
     end) = Done (UMap bs ns1) /\
    length bs = length (buckets m) /\
    (forall c, c <> b -> nth_error bs c = nth_error (buckets m) c) /\
    nth_error bs b = Some (hd_error (l1 ++ idx :: l2)) /\
    pairs ns1 = pairs (nodes m) /\
    (forall i, ~ In i l1 -> nth_error ns1 i = nth_error (nodes m) i) /\
    dll ns1 b st None l1 (Some idx)).
  { destruct (list_snoc l1) as [->|(l0 & p & ->)].
    - cbn [last_or last_opt]. rewrite HLb. rewrite (at_some _ _ _ Hhead). cbn [bind].
      eexists _, _. split; [reflexivity|]. split; [apply set_nth_length|].
      split; [intros c Hc; apply set_nth_other; auto|].
      split; [now rewrite (set_nth_same _ _ _ _ Hhead)|]. easy.
    - rewrite last_or_snoc.
      assert (Hpn : exists n, nth_error (nodes m) p = Some n).
      { destruct (dll_nth _ _ _ _ _ _ p Hd1) as (n & Hn & _); [|eauto].
        apply in_app_iff. right. now left. }
      destruct Hpn as (n & Hpn).
      unfold put_next. rewrite (at_some _ _ _ Hpn). cbn [bind].
      eexists _, _. split; [reflexivity|]. split; [easy|]. split; [easy|].
      split; [rewrite Hhead; destruct l0; easy|].
      split; [eapply pairs_set_nth; [exact Hpn|easy|easy]|].
      split.
      + intros i Hi. apply set_nth_other. intros ->. apply Hi. apply in_app_iff. right. now left.
      + eapply dll_put_next; [exact Hn1|exact Hd1|exact Hpn]. }
  destruct S1 as (bs & ns1 & E1 & Hbl & Hbo & Hbb & Hp1 & Hns1 & Hdl1).
  rewrite E1. cbn [bind buckets nodes]. clear E1.
  assert (He1 : nth_error ns1 idx = Some e) by (rewrite Hns1; easy).
  assert (HL1 : nth_error ns1 last = Some L) by (rewrite Hns1; easy).
  unfold swap_nodes. rewrite (at_some _ _ _ He1), (at_some _ _ _ HL1). cbn [bind].
  set (ns2 := set_nth (set_nth ns1 idx L) last e).
  assert (Hlast2 : nth_error ns2 last = Some e).
  { unfold ns2. eapply set_nth_same. rewrite set_nth_other by auto. exact HL1. }
  assert (Hidx2 : nth_error ns2 idx = Some L).
  { unfold ns2. rewrite set_nth_other by auto. eapply set_nth_same. exact He1. }
  assert (Hns2 : forall i, i <> idx -> i <> last -> nth_error ns2 i = nth_error ns1 i).
  { intros i H1 H2. unfold ns2. rewrite !set_nth_other by auto. easy. }
  assert (Hpm : forall (l : list node) i n, pairs (set_nth l i n) = set_nth (pairs l) i (n_key n, n_val n)).
  { intros l. induction l as [|y l IH]; intros [|i] n; cbn; try easy. f_equal. apply IH. }
  assert (Hp2 : pairs ns2 = set_nth (set_nth (pairs (nodes m)) idx (n_key L, n_val L)) last (n_key e, n_val e)).
  { unfold ns2. now rewrite !Hpm, Hp1. }
  assert (Hk2 : forall i, i <> idx -> i <> last -> key_at ns2 i = key_at (nodes m) i).
  { intros i H1 H2. unfold key_at. rewrite Hns2 by easy. now apply key_at_pairs. }
  eexists. split; [reflexivity|]. cbn [buckets nodes]. split; [exact Hbl|]. split; [exact Hp2|].
  assert (Hback : forall i x, nth_error ns2 i = Some x ->
    exists j y, nth_error (nodes m) j = Some y /\ n_key y = n_key x /\
      ((i = idx /\ j = last) \/ (i = last /\ j = idx) \/ (i <> idx /\ i <> last /\ j = i))).
  { intros i x Hx. destruct (Nat.eq_dec i idx) as [->|H1]; [|destruct (Nat.eq_dec i last) as [->|H2]].
    - rewrite Hidx2 in Hx. injection Hx as <-. exists last, L. split; [easy|]. tauto.
    - rewrite Hlast2 in Hx. injection Hx as <-. exists idx, e. split; [easy|]. tauto.
    - rewrite Hns2 in Hx by easy.
      destruct (pairs_eq_nth _ _ _ _ Hp1 Hx) as (y & Hy & Ky & _). exists i, y. tauto. }
  assert (Hmem : forall c i, In i (upd ch b (l1 ++ idx :: l2) c) <->
      (i = idx /\ c = b) \/ (i <> idx /\ i <> last /\ In i (ch c))).
  { intros c i. destruct (Nat.eq_dec c b) as [->|Hcb].
    - rewrite upd_same, Hch, !in_app_iff. cbn. split.
      + intros [H|[H|H]]; [right|left|right]; try (split; [congruence|]); try split;
          try (intros ->; easy); try tauto.
      + intuition congruence.
    - rewrite upd_other by easy. split; [|intuition congruence].
      intros H. right. destruct (Hother c i Hcb H) as (? & ? & _). easy. }
  split.
  { constructor; cbn [buckets nodes].
    - lia.
    - intros c Hc. destruct (Nat.eq_dec c b) as [->|Hcb].
      + now rewrite upd_same.
      + rewrite upd_other by easy. rewrite Hbo by easy. apply (wf_head _ _ _ _ W). lia.
    - intros i j x x' Hx Hx' E.
      destruct (Hback i x Hx) as (i' & y & Hy & Ky & Ci).
      destruct (Hback j x' Hx') as (j' & y' & Hy' & Ky' & Cj).
      assert (i' = j') by (apply (wf_keys _ _ _ _ W i' j' y y'); congruence).
      lia.
    - intros c. destruct (Nat.eq_dec c b) as [->|Hcb].
      + rewrite upd_same. apply NoDup_remove_1 in Hnd. apply NoDup_Add with (a := idx) (l := l1 ++ l2).
        * apply Add_app.
        * split; [easy|]. rewrite in_app_iff. tauto.
      + rewrite upd_other by easy. apply (wf_nodup _ _ _ _ W).
    - intros c i. rewrite Hbl, Hmem. split.
      + intros [[-> ->]|(H1 & H2 & H3)].
        * split; [easy|]. exists L. easy.
        * split; [easy|]. apply (wf_mem _ _ _ _ W) in H3. destruct H3 as (_ & n & Hn & E).
          destruct (pairs_eq_nth _ _ _ _ (eq_sym Hp1) Hn) as (y & Hy & Ky & _).
          exists y. rewrite Hns2, Ky by easy. easy.
      + intros (H1 & n & Hn & E). destruct (Nat.eq_dec i idx) as [->|H2].
        * left. rewrite Hidx2 in Hn. injection Hn as <-. easy.
        * right. split; [easy|]. split; [easy|]. apply (wf_mem _ _ _ _ W). split; [easy|].
          rewrite Hns2 in Hn by easy.
          destruct (pairs_eq_nth _ _ _ _ Hp1 Hn) as (y & Hy & Ky & _). exists y. now rewrite Ky.
    - intros c. destruct (Nat.eq_dec c b) as [->|Hcb].
      + rewrite upd_same. apply dll_app. split.
        * cbn [hd_or]. eapply dll_same; [| |exact Hdl1].
          -- intros i Hi. apply Hns2; intros ->; easy.
          -- intros i n Hi Hn Hsn. destruct (pairs_eq_nth _ _ _ _ Hp1 Hn) as (y & Hy & Ky & _).
             rewrite <- Ky. apply (Hst i y Hy). left. now rewrite Ky.
        * cbn [dll]. exists L. split; [easy|]. split; [easy|]. split; [easy|].
          split; [intros _; exact HLp|].
          apply dll_same with (ns := nodes m) (st := st').
          -- intros i Hi. rewrite Hns2 by (intros ->; easy). apply Hns1.
             intros H. now apply (Hdisj i).
          -- auto.
          -- eapply dll_split_head; [exact Hd2|]. intros i n Hi Hn H. now apply (Hst i).
      + rewrite upd_other by easy. eapply dll_same; [| |apply (wf_link _ _ _ _ W c)].
        * intros i Hi. destruct (Hother c i Hcb Hi) as (H1 & H2 & H3 & H4).
          rewrite Hns2, Hns1 by easy. easy.
        * intros i n Hi Hn Hsn. apply (Hst i n Hn). now left. }
  split; [exact Hlast2|]. split.
  { exists L. split; [easy|]. split; [easy|]. rewrite HLn. now destruct l2. }
  intros c. destruct (Nat.eq_dec c b) as [->|Hcb].
  - rewrite upd_same, Hch, !map_app. cbn [map].
    assert (Hkk : key_at ns2 idx = key_at (nodes m) last) by (unfold key_at; now rewrite Hidx2, HL).
    rewrite Hkk. f_equal; [|f_equal]; apply map_ext_in; intros i Hi; apply Hk2; intros ->; easy.
  - rewrite upd_other by easy. apply map_ext_in. intros i Hi.
    destruct (Hother c i Hcb Hi) as (H1 & H2 & H3 & H4). now apply Hk2.
Qed.

(** The missing update, as the repaired erase does it. *)
Lemma repair_ok m ch lk (st st' : K -> Prop) b i q n l1 l2 :
  wf m ch lk st -> ch b = l1 ++ i :: q :: l2 ->
  nth_error (nodes m) q = Some n ->
  (forall j x, nth_error (nodes m) j = Some x -> st (n_key x) -> j = q \/ st' (n_key x)) ->
  wf (UMap (buckets m) (set_nth (nodes m) q (set_prev n (Some i)))) ch lk st'.
Proof.
  intros W Hch Hq Hst.
  pose proof (wf_nodup _ _ _ _ W b) as Hnd. rewrite Hch in Hnd.
  set (ns := set_nth _ _ _).
  assert (Hns : forall j, j <> q -> nth_error ns j = nth_error (nodes m) j).
  { intros j Hj. apply set_nth_other. auto. }
  assert (Hp : pairs ns = pairs (nodes m)) by (eapply pairs_set_nth; [exact Hq|easy|easy]).
  assert (Hqb : In q (ch b)).
  { rewrite Hch. apply in_app_iff. right. right. now left. }
  assert (Hnd' : ~ In q (l1 ++ [i]) /\ ~ In q l2 /\ NoDup (q :: l2)).
  { replace (l1 ++ i :: q :: l2) with ((l1 ++ [i]) ++ q :: l2) in Hnd by now rewrite <- app_assoc.
    pose proof (NoDup_remove_2 _ _ _ Hnd) as H. rewrite in_app_iff in H.
    split; [tauto|]. split; [tauto|]. clear -Hnd. revert Hnd. generalize (l1 ++ [i]).
    intros l. induction l as [|x l IH]; intros H; [easy|]. inversion H; subst. now apply IH. }
  destruct Hnd' as (Hq1 & Hq2 & Hq3).
  constructor; cbn [buckets nodes].
  - apply (wf_pos _ _ _ _ W).
  - apply (wf_head _ _ _ _ W).
  - intros j j' x x' Hx Hx' E.
    destruct (pairs_eq_nth _ _ _ _ Hp Hx) as (y & Hy & Ky & _).
    destruct (pairs_eq_nth _ _ _ _ Hp Hx') as (y' & Hy' & Ky' & _).
    apply (wf_keys _ _ _ _ W j j' y y'); congruence.
  - apply (wf_nodup _ _ _ _ W).
  - intros c j. rewrite (wf_mem _ _ _ _ W). split; intros (H & x & Hx & E); (split; [easy|]).
    + destruct (pairs_eq_nth _ _ _ _ (eq_sym Hp) Hx) as (y & Hy & Ky & _). exists y. now rewrite Ky.
    + destruct (pairs_eq_nth _ _ _ _ Hp Hx) as (y & Hy & Ky & _). exists y. now rewrite Ky.
  - intros c. destruct (Nat.eq_dec c b) as [->|Hcb].
    + pose proof (wf_link _ _ _ _ W b) as Hd. rewrite Hch in *.
      replace (l1 ++ i :: q :: l2) with ((l1 ++ [i]) ++ q :: l2) in * by now rewrite <- app_assoc.
      apply dll_app in Hd. destruct Hd as [Hd1 Hd2]. apply dll_app. split.
      * eapply dll_same; [| |exact Hd1].
        -- intros j Hj. apply Hns. intros ->. easy.
        -- intros j x Hj Hx Hs. destruct (Hst j x Hx Hs) as [->|H]; easy.
      * rewrite last_or_snoc in *. unfold ns. eapply dll_put_prev; [exact Hq3|exact Hd2|exact Hq|].
        intros j x Hj Hx Hs. destruct (Hst j x Hx Hs) as [->|H]; easy.
    + assert (Hqc : ~ In q (ch c)).
      { intros H. apply (wf_mem _ _ _ _ W) in H, Hqb.
        destruct H as (_ & x & Hx & E), Hqb as (_ & x' & Hx' & E'). congruence. }
      eapply dll_same; [| |apply (wf_link _ _ _ _ W c)].
      * intros j Hj. apply Hns. intros ->. easy.
      * intros j x Hj Hx Hs. destruct (Hst j x Hx Hs) as [->|H]; easy.
Qed.

Lemma nth_error_firstn {A} (l : list A) n i : i < n -> nth_error (firstn n l) i = nth_error l i.
Proof.
  revert l i. induction n as [|n IH]; intros [|x l] [|i] H; cbn; try easy; try lia. apply IH. lia.
Qed.

Lemma pop_ok m ch st last e :
  wf m ch (fun i => i <> last) st -> length (nodes m) = S last ->
  nth_error (nodes m) last = Some e -> n_prev e = None -> n_next e = None ->
  exists m1, pop_node m = Done m1 /\ length (buckets m1) = length (buckets m) /\
    pairs (nodes m1) = firstn last (pairs (nodes m)) /\
    wf m1 ch (fun _ => True) st /\
    (forall c, map (key_at (nodes m1)) (ch c) = map (key_at (nodes m)) (ch c)).
Proof.
  intros W Hlen He Hp Hn. unfold pop_node. rewrite Hlen, (at_some _ _ _ He). cbn [bind].
  rewrite Hp, Hn. cbn [assert_ bind]. eexists. split; [reflexivity|]. cbn [buckets nodes].
  split; [easy|]. split; [unfold pairs; now rewrite firstn_map|].
  assert (Hlt : forall c i, In i (ch c) -> i < last).
  { intros c i Hi. apply (wf_mem _ _ _ _ W) in Hi. destruct Hi as (H & n & Hx & _).
    apply nth_error_lt in Hx. lia. }
  assert (Hfl : length (firstn last (nodes m)) = last) by (rewrite firstn_length; lia).
  assert (Hin : forall i n, nth_error (firstn last (nodes m)) i = Some n -> i < last).
  { intros i n H. apply nth_error_lt in H. lia. }
  split.
  - destruct W as [W1 W2 W3 W4 W5 W6]. constructor; cbn [buckets nodes]; try easy.
    + intros i j n n' Hi Hj. pose proof (Hin _ _ Hi). pose proof (Hin _ _ Hj).
      rewrite nth_error_firstn in Hi, Hj by easy. eauto.
    + intros c i. rewrite W5. split.
      * intros (H & n & Hx & E). split; [easy|]. exists n. rewrite nth_error_firstn; [easy|].
        apply nth_error_lt in Hx. lia.
      * intros (_ & n & Hx & E). pose proof (Hin _ _ Hx). rewrite nth_error_firstn in Hx by easy.
        split; [lia|]. now exists n.
    + intros c. eapply dll_same; [| |apply W6]; [|auto].
      intros i Hi. apply nth_error_firstn. now apply (Hlt c).
  - intros c. apply map_ext_in. intros i Hi. unfold key_at. rewrite nth_error_firstn; [easy|].
    now apply (Hlt c).
Qed.

(** * Refinement of the abstract machine *)

Definition nextk (w : nat) (ord : list K) (k : K) : option K :=
  hd_error (filter (collide hash w k) (after keqb k ord)).

Lemma without_app k (l1 l2 : list K) : without keqb k (l1 ++ l2) = without keqb k l1 ++ without keqb k l2.
Proof. apply filter_app. Qed.

Lemma without_notin k (l : list K) : ~ In k l -> without keqb k l = l.
Proof.
  induction l as [|x l IH]; [easy|]. cbn. intros H. destruct (keqb_spec x k) as [->|E]; cbn.
  - exfalso. tauto.
  - f_equal. tauto.
Qed.

Lemma in_without k x (l : list K) : In x (without keqb k l) <-> In x l /\ x <> k.
Proof.
  unfold without. rewrite filter_In. destruct (keqb_spec x k); cbn; intuition congruence.
Qed.

Lemma filter_without (p : K -> bool) k l : filter p (without keqb k l) = without keqb k (filter p l).
Proof.
  unfold without. induction l as [|x l IH]; [easy|]. cbn.
  destruct (negb (keqb x k)) eqn:E1, (p x) eqn:E2; cbn; rewrite ?E1, ?E2, ?IH; easy.
Qed.

Lemma filter_after (p : K -> bool) k l ks1 ks2 :
  filter p l = ks1 ++ k :: ks2 -> ~ In k ks1 -> filter p (after keqb k l) = ks2.
Proof.
  revert ks1. induction l as [|x l IH]; intros ks1 H Hk; cbn in *; [now destruct ks1|].
  destruct (p x) eqn:Ep; destruct (keqb_spec x k) as [->|E].
  - destruct ks1 as [|y ks1]; cbn in H, Hk; [congruence|]. exfalso. apply Hk. left. congruence.
  - destruct ks1 as [|y ks1]; cbn in H; [congruence|]. injection H as H1 H2.
    eapply IH; [exact H2|]. cbn in Hk. tauto.
  - exfalso. assert (Hin : In k (filter p l)) by (rewrite H; apply in_app_iff; right; now left).
    apply filter_In in Hin. destruct Hin. congruence.
  - now apply (IH ks1).
Qed.

Lemma map_some_app {A B} (f : A -> option B) l1 i l2 ks :
  map f (l1 ++ i :: l2) = map Some ks ->
  exists ks1 k ks2, ks = ks1 ++ k :: ks2 /\ map f l1 = map Some ks1 /\ f i = Some k /\
    map f l2 = map Some ks2.
Proof.
  revert ks. induction l1 as [|x l1 IH]; intros [|y ks]; cbn; try easy.
  - intros [= H1 H2]. exists [], y, ks. easy.
  - intros [= H1 H2]. destruct (IH ks H2) as (ks1 & k & ks2 & -> & E1 & E2 & E3).
    exists (y :: ks1), k, ks2. cbn. now rewrite H1, E1.
Qed.

Lemma in_map_some {A B} (f : A -> option B) l ks k :
  map f l = map Some ks -> In k ks <-> exists i, In i l /\ f i = Some k.
Proof.
  intros H. split.
  - intros Hk. assert (Hin : In (Some k) (map f l)) by (rewrite H; now apply in_map).
    apply in_map_iff in Hin. destruct Hin as (i & E & Hi). eauto.
  - intros (i & Hi & E). assert (Hin : In (Some k) (map Some ks)).
    { rewrite <- H, <- E. now apply in_map. }
    apply in_map_iff in Hin. destruct Hin as (k' & E' & Hk). now injection E' as ->.
Qed.

Lemma key_at_inj m ch lk st i j k :
  wf m ch lk st -> key_at (nodes m) i = Some k -> key_at (nodes m) j = Some k -> i = j.
Proof.
  intros W. unfold key_at. destruct (nth_error (nodes m) i) as [x|] eqn:Hx; [|easy].
  destruct (nth_error (nodes m) j) as [y|] eqn:Hy; [|easy]. cbn. intros [= E1] [= E2].
  eapply (wf_keys _ _ _ _ W); eauto. congruence.
Qed.

Lemma chain_split m ch (lk : nat -> Prop) st ord i n :
  let w := length (buckets m) in
  let b := bidx w (n_key n) in
  wf m ch lk st -> ordered m ch ord -> lk i -> nth_error (nodes m) i = Some n ->
  exists l1 l2, ch b = l1 ++ i :: l2 /\
    (match hd_error l2 with Some j => key_at (nodes m) j | None => None end) = nextk w ord (n_key n) /\
    (forall c, map (key_at (nodes m)) (upd ch b (l1 ++ l2) c) =
       map Some (filter (fun k => bidx w k =? c) (without keqb (n_key n) ord))).
Proof.
  intros w b W O Hl Hn. pose proof (wf_pos _ _ _ _ W) as Hp. fold w in Hp.
  assert (Hi : In i (ch b)).
  { apply (wf_mem _ _ _ _ W). split; [easy|]. now exists n. }
  apply in_split in Hi. destruct Hi as (l1 & l2 & Hch). exists l1, l2. split; [easy|].
  pose proof (wf_nodup _ _ _ _ W b) as Hnd. rewrite Hch in Hnd.
  pose proof (O b) as Ob. rewrite Hch in Ob. fold w in Ob.
  destruct (map_some_app _ _ _ _ _ Ob) as (ks1 & k & ks2 & Ef & E1 & E2 & E3).
  assert (Ek : k = n_key n) by (unfold key_at in E2; rewrite Hn in E2; cbn in E2; congruence).
  subst k.
  assert (Hk1 : ~ In (n_key n) ks1).
  { intros H. apply (in_map_some _ _ _ _ E1) in H. destruct H as (j & Hj & Ej).
    assert (j = i) by (eapply key_at_inj; eauto). subst j.
    apply NoDup_remove_2 in Hnd. apply Hnd. apply in_app_iff. now left. }
  assert (Hk2 : ~ In (n_key n) ks2).
  { intros H. apply (in_map_some _ _ _ _ E3) in H. destruct H as (j & Hj & Ej).
    assert (j = i) by (eapply key_at_inj; eauto). subst j.
    apply NoDup_remove_2 in Hnd. apply Hnd. apply in_app_iff. now right. }
  split.
  - unfold nextk.
    rewrite (filter_ext (collide hash w (n_key n)) (fun x => bidx w x =? b)).
    2:{ intros x. now apply collide_bidx. }
    rewrite (filter_after _ _ _ _ _ Ef Hk1).
    destruct l2 as [|j l2], ks2 as [|k2 ks2]; try easy. cbn in *. congruence.
  - intros c. rewrite filter_without. destruct (Nat.eq_dec c b) as [->|Hcb].
    + rewrite upd_same, Ef, without_app, map_app. cbn [without].
      change (without keqb (n_key n) (n_key n :: ks2)) with
        (if negb (keqb (n_key n) (n_key n)) then n_key n :: without keqb (n_key n) ks2
         else without keqb (n_key n) ks2).
      destruct (keqb_spec (n_key n) (n_key n)) as [_|?]; [|easy]. cbn [negb].
      rewrite !without_notin, map_app by easy. now rewrite E1, E3.
    + rewrite upd_other by easy. rewrite without_notin; [apply O|].
      intros H. apply filter_In in H. destruct H as [_ H]. apply Nat.eqb_eq in H. now apply Hcb.
Qed.

(** ** What removing does to the node array *)

Lemma firstn_set_nth_ge {A} (l : list A) i n x : n <= i -> firstn n (set_nth l i x) = firstn n l.
Proof.
  revert i n. induction l as [|y l IH]; intros [|i] [|n] H; cbn; try easy; try lia.
  f_equal. apply IH. lia.
Qed.

Lemma set_nth_app1 {A} (l r : list A) i x : i < length l -> set_nth (l ++ r) i x = set_nth l i x ++ r.
Proof. revert i. induction l as [|y l IH]; intros [|i] H; cbn in *; try lia; [easy|]. f_equal. apply IH. lia. Qed.

Lemma in_set_nth {A B} (f : A -> B) (l : list A) i y z x :
  nth_error l i = Some y -> NoDup (map f l) ->
  In x (set_nth l i z) <-> x = z \/ (In x l /\ f x <> f y).
Proof.
  revert i. induction l as [|a l IH]; intros [|i]; cbn; try easy; intros H Hd; inversion Hd; subst.
  - injection H as ->. split.
    + intros [->|Hx]; [now left|]. right. split; [now right|]. intros E. apply H2. rewrite <- E.
      now apply in_map.
    + intros [->|[[->|Hx] E]]; [now left|easy|now right].
  - rewrite (IH i H H3). split.
    + intros [->|[->|[Hx E]]]; [|now left|right; split; [now right|easy]].
      right. split; [now left|]. intros E. apply H2. rewrite E. apply in_map.
      eapply nth_error_In; exact H.
    + intros [->|[[->|Hx] E]]; [right; now left|now left|]. right. right. easy.
Qed.

Lemma set_nth_fill (l : list K) i k x :
  nth_error l i = Some k -> NoDup l ->
  set_nth l i x = map (fun y => if keqb y k then x else y) l.
Proof.
  revert i. induction l as [|a l IH]; intros [|i]; cbn; try easy; intros H Hd; inversion Hd; subst.
  - injection H as ->. destruct (keqb_spec k k); [|easy]. f_equal. symmetry.
    rewrite <- (map_id l) at 2. apply map_ext_in. intros y Hy.
    destruct (keqb_spec y k) as [->|]; easy.
  - destruct (keqb_spec a k) as [->|].
    + exfalso. apply H2. eapply nth_error_In; exact H.
    + f_equal. now apply IH.
Qed.

Lemma wf_nodup_keys m ch lk st : wf m ch lk st -> NoDup (nkeys (nodes m)).
Proof.
  intros W. apply NoDup_nth_error. intros i j Hi E.
  unfold nkeys in *. rewrite map_length in Hi. rewrite !nth_error_map in E.
  destruct (nth_error (nodes m) i) as [x|] eqn:Hx; [|apply nth_error_None in Hx; lia].
  destruct (nth_error (nodes m) j) as [y|] eqn:Hy; [|easy]. cbn in E. injection E as E.
  now apply (wf_keys _ _ _ _ W i j x y).
Qed.

(** Keys and contents after removing [k]. *)
Definition removed (P P' : list (K * V)) (k : K) : Prop :=
  (forall x v, In (x, v) P' <-> In (x, v) P /\ x <> k) /\
  map fst P' =
    (if keqb (last (map fst P) k) k then removelast (map fst P)
     else fill keqb k (last (map fst P) k) (map fst P)).

Lemma removed_last (P : list (K * V)) k v :
  NoDup (map fst (P ++ [(k, v)])) -> removed (P ++ [(k, v)]) P k.
Proof.
  intros Hd. rewrite map_app in Hd. cbn in Hd. apply NoDup_remove_2 in Hd. rewrite app_nil_r in Hd.
  split.
  - intros x u. rewrite in_app_iff. cbn. split.
    + intros H. split; [now left|]. intros ->. apply Hd. apply in_map_iff. now exists (k, u).
    + intros [[H|[H|[]]] E]; [easy|congruence].
  - rewrite map_app. cbn. rewrite last_last, removelast_last.
    destruct (keqb_spec k k); easy.
Qed.

Lemma removed_swap (P : list (K * V)) k v l u i :
  NoDup (map fst (P ++ [(l, u)])) -> nth_error P i = Some (k, v) ->
  removed (P ++ [(l, u)]) (set_nth P i (l, u)) k.
Proof.
  intros Hd Hi. rewrite map_app in Hd. cbn in Hd.
  pose proof (NoDup_remove_1 _ _ _ Hd) as Hd1. rewrite app_nil_r in Hd1.
  pose proof (NoDup_remove_2 _ _ _ Hd) as Hd2. rewrite app_nil_r in Hd2.
  assert (Hkl : l <> k).
  { intros ->. apply Hd2. apply in_map_iff. exists (k, v). split; [easy|]. eapply nth_error_In; exact Hi. }
  split.
  - intros x w. rewrite (in_set_nth fst _ _ _ _ _ Hi Hd1), in_app_iff. cbn. split.
    + intros [E|[H E]]; [|tauto]. injection E as -> ->. split; [|easy]. right. now left.
    + intros [[H|[H|[]]] E]; [now right|now left].
  - rewrite map_app. cbn [map fst]. rewrite last_last. destruct (keqb_spec l k); [easy|].
    unfold fill. rewrite removelast_last.
    assert (Hm : map fst (set_nth P i (l, u)) = set_nth (map fst P) i l).
    { clear. revert i. induction P as [|y P IH]; intros [|i]; cbn; try easy. f_equal. apply IH. }
    rewrite Hm. apply set_nth_fill; [|easy]. now rewrite nth_error_map, Hi.
Qed.

(** ** erase, both versions *)

Definition erase_with (fixed : bool) : umap -> K -> outcome umap := if fixed then erase_fixed keqb hash else erase keqb hash.

Lemma erase_absent fixed m ch st k :
  wf m ch (fun _ => True) st -> (forall v, ~ In (k, v) (pairs (nodes m))) ->
  erase_with fixed m k = Done (m : umap).
Proof.
  intros W Hk.
  destruct (find_index m ch st k W) as [(i & n & E & Hn & En)|[E _]].
  - exfalso. apply (Hk (n_val n)). rewrite <- En. apply pairs_nth in Hn. eapply nth_error_In; exact Hn.
  - destruct fixed; cbn; unfold erase, erase_fixed; now rewrite E.
Qed.

Lemma erase_present fixed m ch (st st' : K -> Prop) ord k :
  let w := length (buckets m) in
  let l := last (nkeys (nodes m)) k in
  wf m ch (fun _ => True) st -> ordered m ch ord ->
  In k (nkeys (nodes m)) -> ~ st k -> ~ st l ->
  (forall x, st x -> x <> k -> nextk w ord k <> Some x -> st' x) ->
  (fixed = false -> l <> k -> forall x, nextk w (without keqb k ord) l = Some x -> st' x) ->
  exists m' ch', erase_with fixed m k = Done m' /\
    length (buckets m') = w /\
    removed (pairs (nodes m)) (pairs (nodes m')) k /\
    wf m' ch' (fun _ => True) st' /\
    ordered m' ch' (without keqb k ord).
Proof.
  intros w l W O Hk Hsk Hsl Hst1 Hst2.
  destruct (find_index m ch st k W) as [(idx & e & E & He & Ee)|[_ E]].
  2:{ exfalso. unfold nkeys in Hk. apply in_map_iff in Hk. destruct Hk as (n & En & Hn).
      apply In_nth_error in Hn. destruct Hn as (i & Hn). now apply (E i n). }
  pose proof (wf_nodup_keys _ _ _ _ W) as Hndk. rewrite nkeys_pairs in Hndk.
  destruct (chain_split m ch _ st ord idx e W O I He) as (l1 & l2 & Hch & Hnx & Hord).
  rewrite Ee in *. fold w in Hnx, Hord, Hch.
  set (b := bidx w k) in *.
  (* the predicate after unlinking *)
  set (st1 := fun x => st x /\ x <> k /\ nextk w ord k <> Some x).
  destruct (unlink_ok m ch st st1 idx e l1 l2 W He) as (m1 & E1 & L1 & P1 & W1 & e1 & He1 & Hep & Hen).
  { now rewrite Ee. }
  { now rewrite Ee. }
  { intros i n Hn Hs.
    destruct (Nat.eq_dec i idx) as [->|Hi]; [now left|].
    destruct (hd_error l2) as [j|] eqn:Hj.
    - destruct (Nat.eq_dec j i) as [->|Hji]; [right; now right|]. right. left.
      split; [easy|]. split; [intros Ek; apply Hi; eapply (wf_keys _ _ _ _ W); eauto; congruence|].
      intros En. apply Hji. apply (key_at_inj _ _ _ _ j i (n_key n) W).
      + congruence.
      + unfold key_at. now rewrite Hn.
    - right. left. split; [easy|].
      split; [intros Ek; apply Hi; eapply (wf_keys _ _ _ _ W); eauto; congruence|]. congruence. }
  rewrite Ee in W1. fold w b in W1.
  assert (O1 : ordered m1 (upd ch b (l1 ++ l2)) (without keqb k ord)).
  { intros c. rewrite L1. fold w. rewrite <- Hord. apply map_ext. intros i. now apply key_at_pairs. }
  (* the last node *)
  destruct (list_snoc (nodes m1)) as [Enil|(ns0 & L & Esn)].
  { exfalso. rewrite Enil in He1. now destruct idx. }
  assert (Hlen : length (nodes m1) = S (length ns0)) by (rewrite Esn, app_length; cbn; lia).
  set (last := length ns0) in *.
  assert (HL : nth_error (nodes m1) last = Some L).
  { rewrite Esn, nth_error_app2 by (unfold last; lia). unfold last. now rewrite Nat.sub_diag. }
  assert (EP : pairs (nodes m) = pairs ns0 ++ [(n_key L, n_val L)]).
  { rewrite <- P1, Esn. unfold pairs. now rewrite map_app. }
  assert (El : l = n_key L).
  { unfold l. rewrite nkeys_pairs, EP, map_app. cbn. apply last_last. }
  destruct (Nat.eq_dec idx last) as [Eil|Hil].
  - (* the removed node is the last one *)
    assert (HLe : L = e1) by (rewrite Eil in He1; congruence).
    assert (Hlk : n_key L = k).
    { destruct (pairs_eq_nth _ _ _ _ P1 HL) as (y & Hy & Ky & _). rewrite <- Eil, He in Hy.
      injection Hy as <-. congruence. }
    assert (Er : relocate m1 idx = Done m1).
    { unfold relocate. rewrite Hlen, Eil, Nat.eqb_refl. easy. }
    destruct (pop_ok m1 (upd ch b (l1 ++ l2)) st1 last L) as (m' & E2 & L2 & P2 & W2 & K2).
    { rewrite <- Eil. exact W1. }
    { exact Hlen. } { exact HL. } { now rewrite HLe. } { now rewrite HLe. }
    exists m', (upd ch b (l1 ++ l2)). split.
    { destruct fixed; cbn [erase_with]; [unfold erase_fixed|unfold erase]; rewrite E; cbn [bind];
        rewrite E1; cbn [bind]; [unfold relocate_fixed|]; rewrite Er; cbn [bind]; [|exact E2].
      rewrite He1, Hlen, Eil, Nat.eqb_refl. exact E2. }
    split; [unfold w in *; congruence|]. split.
    { rewrite P2, P1, EP, firstn_app.
      assert (Hpl : length (pairs ns0) = last) by apply pairs_length.
      rewrite Hpl, Nat.sub_diag, firstn_O, app_nil_r, firstn_all2 by lia.
      rewrite Hlk. apply removed_last. rewrite <- Hlk, <- EP. exact Hndk. }
    split.
    { eapply wf_ext; [| |exact W2]; [easy|]. intros i n _ (H1 & H2 & H3). now apply Hst1. }
    { intros c. rewrite K2, L2. apply O1. }
  - (* the last node moves *)
    destruct (chain_split m1 _ _ st1 _ last L W1 O1) as (q1 & q2 & Hch2 & Hnx2 & _).
    { auto. } { exact HL. }
    rewrite L1 in Hch2, Hnx2. fold w in Hch2, Hnx2.
    set (st2 := fun x => st1 x \/ nextk w (without keqb k ord) (n_key L) = Some x).
    assert (Hlk : n_key L <> k).
    { intros Elk. apply Hil. symmetry.
      destruct (pairs_eq_nth _ _ _ _ P1 HL) as (y & Hy & Ky & _).
      eapply (wf_keys _ _ _ _ W); eauto. congruence. }
    destruct (relocate_ok m1 (upd ch b (l1 ++ l2)) st1 st2 idx last e1 L q1 q2)
      as (m2 & E2 & L2 & P2 & W2 & HL2 & (LL & HLL & KL & NL) & K2).
    { exact W1. } { exact Hlen. } { exact Hil. } { exact He1. } { exact HL. }
    { intros (H1 & _). apply Hsl. now rewrite El. }
    { rewrite L1. exact Hch2. }
    { intros i n Hn [H|H]; [now left|]. right. rewrite H in Hnx2.
      unfold key_at in Hnx2. rewrite Hn in Hnx2. now rewrite <- Hnx2. }
    rewrite L1 in W2, K2. fold w in W2, K2.
    set (b2 := bidx w (n_key L)) in *.
    set (ch2 := upd (upd ch b (l1 ++ l2)) b2 (q1 ++ idx :: q2)) in *.
    assert (Hlen2 : length (nodes m2) = S last).
    { rewrite <- pairs_length, P2, !set_nth_length, pairs_length. exact Hlen. }
    assert (Hidx_lt : idx < last).
    { apply nth_error_lt in He1. lia. }
    (* the repair, if any *)
    assert (S3 : exists m3, (if fixed then relocate_fixed m1 idx else Done m2) = Done m3 /\
      length (buckets m3) = w /\ pairs (nodes m3) = pairs (nodes m2) /\
      nth_error (nodes m3) last = Some e1 /\
      wf m3 ch2 (fun i => i <> last) st').
    { destruct fixed.
      - unfold relocate_fixed. rewrite E2. cbn [bind]. rewrite HLL, Hlen2.
        destruct (Nat.eqb_spec (S idx) (S last)) as [?|_]; [lia|]. rewrite NL.
        destruct q2 as [|q q2]; cbn [hd_error].
        + exists m2. split; [easy|]. split; [unfold w in *; congruence|]. split; [easy|]. split; [easy|].
          eapply wf_ext; [| |exact W2]; [easy|].
          intros i n _ [(H1 & H2 & H3)|H]; [now apply Hst1|]. cbn in Hnx2. congruence.
        + assert (Hq : In q (ch2 b2)).
          { unfold ch2. rewrite upd_same. apply in_app_iff. right. right. now left. }
          destruct (dll_nth _ _ _ _ _ _ q (wf_link _ _ _ _ W2 b2) Hq) as (nq & Hnq & _).
          assert (Hql : q <> last). { apply (wf_mem _ _ _ _ W2) in Hq. easy. }
          unfold put_prev. rewrite (at_some _ _ _ Hnq). cbn [bind].
          eexists. split; [reflexivity|]. cbn [buckets nodes]. split; [unfold w in *; congruence|].
          split; [eapply pairs_set_nth; [exact Hnq|easy|easy]|].
          split; [rewrite set_nth_other by easy; exact HL2|].
          eapply (repair_ok m2 ch2 _ st2 st' b2 idx q nq q1 q2); [exact W2|apply upd_same|exact Hnq|].
          intros j x Hx [(H1 & H2 & H3)|H]; [right; now apply Hst1|]. left.
          cbn [hd_error] in Hnx2. rewrite H in Hnx2.
          apply (key_at_inj _ _ _ _ j q (n_key x) W2); [unfold key_at; now rewrite Hx|].
          assert (Hkq : key_at (nodes m2) q = key_at (nodes m1) q).
          { specialize (K2 b2). unfold ch2 in K2. rewrite upd_same, Hch2, !map_app in K2.
            assert (Hsame : forall (A : Type) (a b c d : list A), length a = length c ->
              a ++ b = c ++ d -> a = c /\ b = d).
            { clear. intros A a. induction a as [|x a IH]; intros b [|y c] d H E; cbn in *; try easy.
              injection E as -> E. destruct (IH b c d) as [-> ->]; [lia|easy|easy]. }
            apply Hsame in K2; [|now rewrite !map_length].
            destruct K2 as [_ K2]. cbn in K2. injection K2 as _ K2 _. exact K2. }
          now rewrite Hkq.
      - exists m2. split; [easy|]. split; [unfold w in *; congruence|]. split; [easy|]. split; [easy|].
        eapply wf_ext; [| |exact W2]; [easy|].
        intros i n _ [(H1 & H2 & H3)|H]; [now apply Hst1|]. rewrite <- El in H. apply Hst2; auto.
        now rewrite El. }
    destruct S3 as (m3 & E3 & L3 & P3 & HL3 & W3).
    destruct (pop_ok m3 ch2 st' last e1 W3) as (m' & E4 & L4 & P4 & W4 & K4).
    { now rewrite (pairs_eq_length _ _ P3). } { exact HL3. } { exact Hep. } { exact Hen. }
    exists m', ch2. split.
    { destruct fixed; cbn [erase_with]; [unfold erase_fixed|unfold erase]; rewrite E; cbn [bind];
        rewrite E1; cbn [bind].
      - rewrite E3. cbn [bind]. exact E4.
      - rewrite E2. injection E3 as ->. cbn [bind]. exact E4. }
    split; [unfold w in *; congruence|]. split.
    { rewrite P4, P3, P2, P1, EP.
      assert (Hpl : length (pairs ns0) = last) by apply pairs_length.
      rewrite firstn_set_nth_ge by lia. rewrite set_nth_app1 by lia.
      rewrite firstn_app, set_nth_length, Hpl, Nat.sub_diag, firstn_O, app_nil_r.
      rewrite firstn_all2 by (rewrite set_nth_length; lia).
      destruct (pairs_eq_nth _ _ _ _ (eq_sym P1) He) as (y & Hy & Ky & Vy).
      apply removed_swap with (v := n_val e).
      - rewrite <- EP. exact Hndk.
      - apply pairs_nth in He. rewrite EP in He. rewrite nth_error_app1 in He by lia. congruence. }
    split; [exact W4|].
    intros c. rewrite K4.
    rewrite (map_ext _ _ (fun i => key_at_pairs _ _ i P3)). rewrite K2, L4, L3.
    rewrite (O1 c). now rewrite L1.
Qed.

(** ** One operation *)

(** A map in a good state: its nodes are [slots], linked in [ord], with correct back links
    except for [stl], and its contents are [f]. *)
Definition good (m : umap) (s : shape K) (f : K -> option V) : Prop :=
  exists ch,
    wf m ch (fun _ => True) (fun k => In k (stale s)) /\
    ordered m ch (order s) /\
    nkeys (nodes m) = slots s /\
    length (buckets m) = width s /\
    (forall k v, In (k, v) (pairs (nodes m)) <-> f k = Some v) /\
    (forall k, In k (stale s) -> In k (slots s)).

Lemma memb_spec k l : reflect (In k l) (memb keqb k l).
Proof.
  unfold memb. destruct (existsb (keqb k) l) eqn:E; constructor.
  - apply existsb_exists in E. destruct E as (x & Hx & Ex). destruct (keqb_spec k x); [now subst|easy].
  - intros H. assert (E' : existsb (keqb k) l = true); [|congruence].
    apply existsb_exists. exists k. split; [easy|]. destruct (keqb_spec k k); easy.
Qed.

Lemma in_keys_pairs (ns : list node) k : In k (nkeys ns) <-> exists v, In (k, v) (pairs ns).
Proof.
  rewrite nkeys_pairs, in_map_iff. split.
  - intros ([x v] & <- & H). eauto.
  - intros (v & H). now exists (k, v).
Qed.

Lemma good_live m s f k : good m s f -> In k (slots s) <-> exists v, f k = Some v.
Proof.
  intros (ch & W & O & Hk & Hw & Hf & _). rewrite <- Hk, in_keys_pairs.
  split; intros (v & H); exists v; now apply Hf.
Qed.

Lemma good_find m s f k : good m s f -> find keqb hash m k = Done (f k).
Proof.
  intros (ch & W & O & Hk & Hw & Hf & _). unfold find.
  destruct (find_index m ch _ k W) as [(i & n & E & Hn & En)|[E Hno]]; rewrite E; cbn [bind].
  - rewrite (at_some _ _ _ Hn). cbn [bind]. f_equal. symmetry. apply Hf. rewrite <- En.
    apply pairs_nth in Hn. eapply nth_error_In; exact Hn.
  - destruct (f k) as [v|] eqn:Ef; [|easy]. exfalso. apply Hf in Ef.
    apply In_nth_error in Ef. destruct Ef as (i & Hi). apply pairs_inv in Hi.
    destruct Hi as (n & Hn & En & _). now apply (Hno i n).
Qed.

Lemma good_empty : good (empty_map : umap) (shape0 : shape K) (fun _ => None).
Proof.
  exists (fun _ => []). split.
  - constructor; cbn.
    + lia.
    + intros [|b] H; [easy|lia].
    + intros [|i]; easy.
    + constructor.
    + intros b i. split; [easy|]. intros (_ & n & H & _). now destruct i.
    + easy.
  - cbn. repeat split; try easy.
Qed.

Lemma good_clear m s f :
  good m s f -> good (clear m) (Shape [] [] [] (width s)) (fun _ => None).
Proof.
  intros (ch & W & O & Hk & Hw & Hf & _). exists (fun _ => []). split.
  - constructor; cbn.
    + rewrite repeat_length. apply (wf_pos _ _ _ _ W).
    + rewrite repeat_length. intros b Hb. now apply nth_error_repeat.
    + intros [|i]; easy.
    + constructor.
    + intros b i. split; [easy|]. intros (_ & n & H & _). now destruct i.
    + easy.
  - cbn. rewrite repeat_length. repeat split; try easy.
Qed.

Lemma good_add m s f k v :
  good m s f ->
  exists m', insertOrAssign keqb hash m k v = Done m' /\
    good m' (shape_add keqb s k) (ideal_step keqb f (Add k v)).
Proof.
  intros G. pose proof G as (ch & W & O & Hk & Hw & Hf & Hst). unfold insertOrAssign, shape_add.
  destruct (find_index m ch _ k W) as [(i & n & E & Hn & En)|[E Hno]]; rewrite E; cbn [bind].
  - (* overwrite *)
    rewrite (at_some _ _ _ Hn). cbn [bind]. eexists. split; [reflexivity|].
    assert (Hin : In k (slots s)).
    { rewrite <- Hk. rewrite <- En. apply in_map. eapply nth_error_In; exact Hn. }
    destruct (memb_spec k (slots s)) as [_|?]; [|easy].
    set (ns := set_nth (nodes m) i (set_val n v)).
    assert (Hsame : forall j x, nth_error (nodes m) j = Some x ->
      exists y, nth_error ns j = Some y /\ n_key y = n_key x /\ n_bucket y = n_bucket x /\
        n_next y = n_next x /\ n_prev y = n_prev x).
    { intros j x Hx. destruct (Nat.eq_dec i j) as [<-|Hij].
      - rewrite Hn in Hx. injection Hx as <-. exists (set_val n v). split; [|easy].
        eapply set_nth_same; exact Hn.
      - exists x. split; [|easy]. unfold ns. now rewrite set_nth_other. }
    assert (Hback : forall j y, nth_error ns j = Some y ->
      exists x, nth_error (nodes m) j = Some x /\ n_key x = n_key y).
    { intros j y Hy. destruct (nth_error (nodes m) j) as [x|] eqn:Hx.
      - destruct (Hsame j x Hx) as (y' & Hy' & Ky & _). exists x. split; [easy|]. congruence.
      - apply nth_error_None in Hx. apply nth_error_lt in Hy. unfold ns in Hy.
        rewrite set_nth_length in Hy. lia. }
    assert (Hkeys : nkeys ns = nkeys (nodes m)) by (eapply map_set_nth; [exact Hn|easy]).
    exists ch. cbn [buckets nodes]. split; [|split; [|split; [|split; [|split]]]].
    + destruct W as [W1 W2 W3 W4 W5 W6]. constructor; cbn [buckets nodes]; try easy.
      * intros j j' y y' Hy Hy' Ey.
        destruct (Hback _ _ Hy) as (x & Hx & Kx), (Hback _ _ Hy') as (x' & Hx' & Kx').
        apply (W3 j j' x x'); congruence.
      * intros b j. rewrite W5. split; intros (_ & x & Hx & Ex); (split; [easy|]).
        -- destruct (Hsame j x Hx) as (y & Hy & Ky & _). exists y. now rewrite Ky.
        -- destruct (Hback j x Hx) as (y & Hy & Ky). exists y. now rewrite Ky.
      * intros b. eapply dll_frame; [| |apply W6]; [|auto].
        intros j x _ Hx. right. apply Hsame. easy.
    + intros b. cbn [buckets nodes]. rewrite <- (O b). apply map_ext. intros j. unfold key_at.
      destruct (nth_error (nodes m) j) as [x|] eqn:Hx.
      * destruct (Hsame j x Hx) as (y & -> & Ky & _). cbn. now rewrite Ky.
      * destruct (nth_error ns j) as [y|] eqn:Hy; [|easy]. destruct (Hback j y Hy) as (x & Hx' & _).
        congruence.
    + congruence.
    + easy.
    + intros x u. cbn [ideal_step].
      assert (Hpm : pairs ns = set_nth (pairs (nodes m)) i (k, v)).
      { unfold ns. rewrite <- En. clear. generalize (nodes m) i. intros l.
        induction l as [|y l IH]; intros [|j]; cbn; try easy. f_equal. apply IH. }
      rewrite Hpm.
      pose proof (wf_nodup_keys _ _ _ _ W) as Hnd. rewrite nkeys_pairs in Hnd.
      rewrite (in_set_nth fst _ _ _ _ _ (pairs_nth _ _ _ Hn) Hnd). cbn [fst]. rewrite En.
      destruct (keqb_spec x k) as [->|Hx].
      * split; [intros [H|H]; [congruence|tauto]|intros [= ->]; now left].
      * rewrite <- Hf. split; [intros [H|H]; [congruence|easy]|intros H; now right].
    + exact Hst.
  - (* new key *)
    assert (Hnin : ~ In k (slots s)).
    { rewrite <- Hk. unfold nkeys. rewrite in_map_iff. intros (n & En & Hn).
      apply In_nth_error in Hn. destruct Hn as (i & Hn). now apply (Hno i n). }
    destruct (memb_spec k (slots s)) as [?|_]; [easy|].
    assert (Hlen : length (nodes m) = length (slots s)).
    { rewrite <- Hk. unfold nkeys. now rewrite map_length. }
    rewrite Hlen, Hw.
    assert (S1 : exists m1 ch1 s1,
      (if load_exceeds (S (length (slots s))) (width s)
       then rehash hash m (length (slots s) * 2) else Done m) = Done m1 /\
      s1 = (if load_exceeds (S (length (slots s))) (width s)
            then Shape (slots s) (slots s) [] (length (slots s) * 2) else s) /\
      pairs (nodes m1) = pairs (nodes m) /\
      wf m1 ch1 (fun _ => True) (fun k => In k (stale s1)) /\
      ordered m1 ch1 (order s1) /\
      slots s1 = slots s /\
      length (buckets m1) = width s1 /\
      (forall k, In k (stale s1) -> In k (slots s))).
    { destruct (load_exceeds (S (length (slots s))) (width s)) eqn:El.
      - assert (H0 : 0 < length (slots s)).
        { eapply load_exceeds_nonzero; [|exact El]. rewrite <- Hw. apply (wf_pos _ _ _ _ W). }
        destruct (rehash_ok m ch _ (length (slots s) * 2) W) as (m1 & ch1 & E1 & E2 & E3 & E4 & E5);
          [lia|].
        eexists m1, ch1, _. split; [exact E1|]. split; [reflexivity|]. split; [easy|].
        cbn [stale order slots width]. split.
        + eapply wf_ext; [| |exact E4]; easy.
        + split; [|easy]. rewrite nkeys_pairs, E3, <- nkeys_pairs, Hk in E5. exact E5.
      - exists m, ch, s. easy. }
    destruct S1 as (m1 & ch1 & s1 & E1 & Es & P1 & W1 & O1 & Sl1 & Wd1 & St1).
    rewrite E1, <- Es. cbn [bind]. clear E1.
    assert (Hno1 : forall i n, nth_error (nodes m1) i = Some n -> n_key n <> k).
    { intros i n Hn Ek. destruct (pairs_eq_nth _ _ _ _ P1 Hn) as (y & Hy & Ky & _).
      apply (Hno i y Hy). congruence. }
    destruct (insert_new m1 ch1 _ _ k v W1 O1) as (m' & ch' & F1 & F2 & F3 & F4 & F5); [|exact Hno1|].
    { intros H. apply Hnin. now apply St1. }
    exists m'. split; [exact F1|]. exists ch'. cbn [stale order slots width].
    split; [exact F4|]. split; [exact F5|]. split; [|split; [|split]].
    + rewrite nkeys_pairs, F3, P1, map_app, <- nkeys_pairs, Hk, Sl1. easy.
    + congruence.
    + intros x u. rewrite F3, P1, in_app_iff, Hf. cbn.
      destruct (keqb_spec x k) as [->|Hx].
      * split; [|intros [= ->]; right; now left].
        intros [H|[H|[]]]; [|congruence]. exfalso. apply Hnin. apply (good_live _ _ _ _ G). eauto.
      * split; [intros [H|[H|[]]]; [easy|congruence]|now left].
    + intros x Hx. rewrite Sl1, in_app_iff. left. now apply St1.
Qed.

Lemma last_in (l : list K) k : l <> [] -> In (last l k) l.
Proof.
  destruct (list_snoc l) as [->|(l0 & x & ->)]; [easy|]. intros _. rewrite last_last.
  apply in_app_iff. right. now left.
Qed.

Lemma in_without_opt o x (l : list K) : In x (without_opt keqb o l) <-> In x l /\ o <> Some x.
Proof.
  destruct o as [k|]; cbn; [|easy]. rewrite in_without. intuition congruence.
Qed.

(** Keys after a removal. *)
Lemma removed_keys P P' k x :
  removed P P' k -> In x (map fst P') <-> In x (map fst P) /\ x <> k.
Proof.
  intros [H _]. rewrite !in_map_iff. split.
  - intros ([y v] & <- & Hy). apply H in Hy. cbn. split; [|easy]. now exists (y, v).
  - intros (([y v] & <- & Hy) & Hx). exists (y, v). split; [easy|]. apply H. easy.
Qed.

Lemma ordered_live m ch st ord k :
  wf m ch (fun _ => True) st -> ordered m ch ord -> In k ord -> In k (nkeys (nodes m)).
Proof.
  intros W O Hk. set (b := bidx (length (buckets m)) k).
  assert (H : In k (filter (fun x => bidx (length (buckets m)) x =? b) ord)).
  { apply filter_In. split; [easy|]. apply Nat.eqb_refl. }
  apply (in_map_some _ _ _ _ (O b)) in H. destruct H as (i & _ & Hi).
  unfold key_at in Hi. destruct (nth_error (nodes m) i) as [n|] eqn:Hn; [|easy].
  injection Hi as <-. apply in_map. eapply nth_error_In; exact Hn.
Qed.

Lemma after_incl k x (l : list K) : In x (after keqb k l) -> In x l.
Proof.
  induction l as [|y l IH]; [easy|]. cbn. destruct (keqb y k); [now right|]. intros H. right. auto.
Qed.

Lemma nextk_in w ord k x : nextk w ord k = Some x -> In x ord.
Proof.
  unfold nextk. intros H. destruct (filter _ _) as [|y l] eqn:E; [easy|]. injection H as ->.
  assert (Hx : In x (filter (collide hash w k) (after keqb k ord))) by (rewrite E; now left).
  apply filter_In in Hx. destruct Hx as [Hx _]. now apply after_incl in Hx.
Qed.

Lemma good_remove_absent fixed m s f k :
  good m s f -> ~ In k (slots s) ->
  erase_with fixed m k = Done m /\ good m s (ideal_step keqb f (Remove k)).
Proof.
  intros G Hk. pose proof G as (ch & W & O & Hs & Hw & Hf & Hst). split.
  - eapply erase_absent; [exact W|]. intros v Hv. apply Hk. rewrite <- Hs.
    apply in_keys_pairs. eauto.
  - exists ch. repeat (split; [easy|]). split; [|easy].
    intros x v. cbn [ideal_step]. destruct (keqb_spec x k) as [->|Hx]; [|apply Hf].
    split; [|easy]. intros H. exfalso. apply Hk. rewrite <- Hs. apply in_keys_pairs. eauto.
Qed.

Lemma good_remove m s f k :
  good m s f -> harmless (V := V) s (Remove k) ->
  exists m', erase keqb hash m k = Done m' /\
    good m' (shape_remove keqb hash s k) (ideal_step keqb f (Remove k)).
Proof.
  intros G Hh. pose proof G as (ch & W & O & Hs & Hw & Hf & Hst). unfold shape_remove.
  destruct (memb_spec k (slots s)) as [Hin|Hnin].
  2:{ destruct (good_remove_absent false m s f k G Hnin) as [E G']. now exists m. }
  cbn in Hh. destruct (Hh Hin) as [Hh1 Hh2].
  set (l := last (slots s) k) in *.
  set (stale1 := without_opt keqb (next_of keqb hash s k) (without keqb k (stale s))).
  set (order1 := without keqb k (order s)).
  set (s' := if keqb l k then Shape (removelast (slots s)) order1 stale1 (width s)
             else Shape (fill keqb k l (slots s)) order1
               (olist (next_of keqb hash (Shape (slots s) order1 stale1 (width s)) l) ++ stale1)
               (width s)).
  assert (Hnk : forall x, next_of keqb hash s k = Some x <-> nextk (length (buckets m)) (order s) k = Some x).
  { intros x. unfold next_of, nextk. now rewrite Hw. }
  destruct (erase_present false m ch _ (fun x => In x (stale s')) (order s) k W O)
    as (m' & ch' & E & E1 & E2 & E3 & E4).
  { now rewrite Hs. }
  { exact Hh1. }
  { rewrite Hs. fold l. destruct (keqb_spec l k) as [Elk|Elk]; [now rewrite Elk|now apply Hh2]. }
  { intros x Hx Hxk Hnx.
    assert (H1 : In x stale1).
    { apply in_without_opt. split; [now apply in_without|]. rewrite Hnk. easy. }
    unfold s'. destruct (keqb l k); cbn [stale]; [easy|]. apply in_app_iff. now right. }
  { rewrite Hs. fold l. intros _ Hlk x Hx. unfold s'.
    destruct (keqb_spec l k) as [?|_]; [easy|]. cbn [stale]. apply in_app_iff. left.
    assert (Hno : next_of keqb hash (Shape (slots s) order1 stale1 (width s)) l = Some x).
    { unfold next_of. cbn [width order]. rewrite <- Hw. exact Hx. }
    rewrite Hno. now left. }
  exists m'. split; [exact E|]. fold s'.
  assert (Hkeys : nkeys (nodes m') = slots s').
  { rewrite nkeys_pairs. destruct E2 as [_ E2]. rewrite E2, <- nkeys_pairs, Hs. fold l.
    unfold s'. now destruct (keqb l k). }
  assert (Hord : order s' = order1) by (unfold s'; now destruct (keqb l k)).
  exists ch'. split; [exact E3|]. split; [now rewrite Hord|]. split; [exact Hkeys|].
  split; [unfold s'; rewrite E1, Hw; now destruct (keqb l k)|]. split.
  - intros x v. cbn [ideal_step]. rewrite (proj1 E2), Hf.
    destruct (keqb_spec x k) as [->|Hx]; [|easy]. split; [tauto|easy].
  - intros x Hx. rewrite <- Hkeys, nkeys_pairs, (removed_keys _ _ _ _ E2), <- nkeys_pairs.
    assert (H1 : In x stale1 -> In x (nkeys (nodes m)) /\ x <> k).
    { intros H. apply in_without_opt in H. destruct H as [H _]. apply in_without in H.
      destruct H as [H H']. split; [|easy]. rewrite Hs. now apply Hst. }
    unfold s' in Hx. destruct (keqb l k); cbn [stale] in Hx; [auto|].
    apply in_app_iff in Hx. destruct Hx as [Hx|Hx]; [|auto].
    destruct (next_of keqb hash (Shape (slots s) order1 stale1 (width s)) l) as [y|] eqn:Ey; [|easy].
    cbn in Hx. destruct Hx as [<-|[]].
    change (nextk (width s) order1 l = Some y) in Ey. apply nextk_in in Ey.
    apply in_without in Ey. destruct Ey as [Ey Eyk]. split; [|easy].
    eapply ordered_live; [exact W|exact O|easy].
Qed.

Lemma good_step m s f o :
  good m s f -> harmless s o ->
  exists m', step keqb hash m o = Done m' /\
    good m' (shape_step keqb hash s o) (ideal_step keqb f o).
Proof.
  intros G Hh. destruct o as [k v|k|]; cbn [step shape_step].
  - now apply good_add.
  - now apply good_remove.
  - eexists. split; [reflexivity|]. eapply good_clear. exact G.
Qed.

Lemma good_run h : forall m s f,
  good m s f -> harmless_from keqb hash s h ->
  exists m' s', run_from (step keqb hash) m h = Done m' /\
    good m' s' (fold_left (ideal_step keqb) h f).
Proof.
  induction h as [|o h IH]; intros m s f G Hh; cbn [run_from fold_left].
  - now exists m, s.
  - cbn in Hh. destruct Hh as [Ho Hh]. destruct (good_step m s f o G Ho) as (m1 & E & G1).
    rewrite E. cbn [bind]. now apply (IH m1 (shape_step keqb hash s o)).
Qed.

(** The repaired map: no stale links. *)
Definition good_fixed (m : umap) (f : K -> option V) : Prop :=
  exists s, stale s = [] /\ good m s f.

Lemma good_fixed_step m f o :
  good_fixed m f ->
  exists m', step_fixed keqb hash m o = Done m' /\ good_fixed m' (ideal_step keqb f o).
Proof.
  intros (s & Hs & G). destruct o as [k v|k|]; cbn [step_fixed].
  - destruct (good_add m s f k v G) as (m' & E & G'). exists m'. split; [exact E|].
    eexists. split; [|exact G']. unfold shape_add. destruct (memb keqb k (slots s)); [easy|].
    destruct (load_exceeds _ _); easy.
  - destruct (memb_spec k (slots s)) as [Hin|Hnin].
    2:{ destruct (good_remove_absent true m s f k G Hnin) as [E G']. exists m. split; [exact E|].
        now exists s. }
    destruct G as (ch & W & O & Hk & Hw & Hf & Hst). rewrite Hs in *.
    destruct (erase_present true m ch _ (fun x => In x []) (order s) k W O)
      as (m' & ch' & E & E1 & E2 & E3 & E4); try easy.
    { now rewrite Hk. }
    exists m'. split; [exact E|].
    exists (Shape (nkeys (nodes m')) (without keqb k (order s)) [] (width s)). split; [easy|].
    exists ch'. cbn [stale order slots width]. split; [exact E3|]. split; [exact E4|].
    split; [easy|]. split; [congruence|].
    split; [|easy]. intros x v. cbn [ideal_step]. rewrite (proj1 E2), Hf.
    destruct (keqb_spec x k) as [->|Hx]; [|easy]. split; [tauto|easy].
  - eexists. split; [reflexivity|]. eexists (Shape [] [] [] (width s)). split; [easy|].
    eapply good_clear. exact G.
Qed.

Lemma good_fixed_run h : forall m f,
  good_fixed m f ->
  exists m', run_from (step_fixed keqb hash) m h = Done m' /\
    good_fixed m' (fold_left (ideal_step keqb) h f).
Proof.
  induction h as [|o h IH]; intros m f G; cbn [run_from fold_left].
  - now exists m.
  - destruct (good_fixed_step m f o G) as (m1 & E & G1). rewrite E. cbn [bind]. now apply IH.
Qed.
End Proofs.
