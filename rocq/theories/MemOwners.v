(** Any number of objects that each own at most one block: the frame argument
    shared by programs over several objects. *)
From Coq Require Import Bool PeanoNat Lia List.
From Verif Require Import Util Base Mem MemProofs.
Import ListNotations.

Section Owners.
Context {A X : Type}.

(** The block owned by a buffer. *)
Definition owner_of (s : buffer A) : option nat :=
  match m_ptr s with At k _ => Some k | _ => None end.

(** [rep h s x]: the buffer [s] in [h] represents [x].  It may only depend on
    the block the buffer owns, which is alive. *)
Variable rep : heap A -> buffer A -> X -> Prop.
Hypothesis rep_live : forall h s x k, rep h s x -> owner_of s = Some k -> exists cs, live h k cs.
Hypothesis rep_frame : forall h s x h' o o', rep h s x -> evolves h o h' o' ->
  (forall k, owner_of s = Some k -> o <> Some k) -> rep h' s x.
Variable nothing : X.
Hypothesis rep_nothing : forall h, rep h moved_buffer nothing.

Record owners (a : nat -> option X) (h : heap A) (f : nat -> option (buffer A)) : Prop := Owners {
  ow_obj : forall i, match a i, f i with
                     | None, None => True
                     | Some x, Some s => rep h s x
                     | _, _ => False
                     end;
  ow_apart : forall i j s t k, f i = Some s -> f j = Some t ->
               owner_of s = Some k -> owner_of t = Some k -> i = j;
  ow_owner : forall k cs, live h k cs -> exists i s, f i = Some s /\ owner_of s = Some k
}.

Definition oput {Y : Type} (f : nat -> option Y) (i : nat) (o : option Y) : nat -> option Y :=
  fun j => if Nat.eqb j i then o else f j.

Lemma owners_some : forall a h f i x, owners a h f -> a i = Some x ->
  exists s, f i = Some s /\ rep h s x.
Proof.
  intros a h f i x R H. pose proof (ow_obj _ _ _ R i) as Hi. rewrite H in Hi.
  destruct (f i) as [s|]; [|contradiction]. exists s. auto.
Qed.

Lemma owners_none : forall a h f i, owners a h f -> a i = None -> f i = None.
Proof.
  intros a h f i R H. pose proof (ow_obj _ _ _ R i) as Hi. rewrite H in Hi.
  destruct (f i); [contradiction|reflexivity].
Qed.

Lemma owners_ext : forall a b h f g,
  owners a h f -> (forall i, a i = b i) -> (forall i, f i = g i) -> owners b h g.
Proof.
  intros a b h f g R Ha Hf. constructor.
  - intros i. rewrite <- Ha, <- Hf. apply (ow_obj _ _ _ R).
  - intros i j s t k. rewrite <- !Hf. apply (ow_apart _ _ _ R).
  - intros k cs Hl. destruct (ow_owner _ _ _ R _ _ Hl) as (i & s & H1 & H2).
    exists i, s. rewrite <- Hf. auto.
Qed.

Lemma owners_step : forall a h f i h' (x' : option X) (s' : option (buffer A)) o,
  owners a h f ->
  match f i with Some s => owner_of s | None => None end = o ->
  evolves h o h' (match s' with Some s => owner_of s | None => None end) ->
  match x', s' with
  | None, None => True
  | Some x, Some s => rep h' s x
  | _, _ => False
  end ->
  owners (oput a i x') h' (oput f i s').
Proof.
  intros a h f i h' x' s' o R Ho E Hnew.
  assert (forall j t k, j <> i -> f j = Some t -> owner_of t = Some k ->
            o <> Some k /\ exists cs, live h k cs) as Hother.
  { intros j t k Hj Ht Hk. split.
    - intros ->. destruct (f i) as [s|] eqn:Hs; [|discriminate].
      apply Hj. symmetry. eapply (ow_apart _ _ _ R); eassumption.
    - pose proof (ow_obj _ _ _ R j) as Hobj. rewrite Ht in Hobj.
      destruct (a j) as [c|]; [|contradiction]. eapply rep_live; eassumption. }
  constructor.
  - intros j. unfold oput. destruct (Nat.eqb j i) eqn:Hj; [assumption|].
    apply Nat.eqb_neq in Hj. pose proof (ow_obj _ _ _ R j) as Hobj.
    destruct (a j) as [c|], (f j) as [t|] eqn:Ht; auto.
    eapply rep_frame; [eassumption|eassumption|].
    intros b Hb. destruct (Hother j t b) as (? & _); auto.
  - intros j1 j2 s1 s2 k. unfold oput.
    destruct (Nat.eqb j1 i) eqn:H1, (Nat.eqb j2 i) eqn:H2; intros E1 E2 K1 K2.
    + apply Nat.eqb_eq in H1, H2. congruence.
    + apply Nat.eqb_neq in H2. exfalso. destruct (Hother j2 s2 k) as (Hn & cs & Hl); auto.
      destruct (proj2 E _ _ Hl Hn) as (_ & Hx). subst s'. congruence.
    + apply Nat.eqb_neq in H1. exfalso. destruct (Hother j1 s1 k) as (Hn & cs & Hl); auto.
      destruct (proj2 E _ _ Hl Hn) as (_ & Hx). subst s'. congruence.
    + eapply (ow_apart _ _ _ R); eassumption.
  - intros k cs Hl. destruct (proj1 E _ _ Hl) as [Hk|(Hn & Hl0)].
    + destruct s' as [s'|]; [|discriminate]. exists i, s'. unfold oput. rewrite Nat.eqb_refl. auto.
    + destruct (ow_owner _ _ _ R _ _ Hl0) as (j & t & Ht & Hk). exists j, t.
      unfold oput. destruct (Nat.eqb j i) eqn:Hj; [|auto].
      apply Nat.eqb_eq in Hj. subst j. rewrite Ht in Ho. congruence.
Qed.

Definition other (i j m : nat) : nat :=
  if Nat.eqb m i then j else if Nat.eqb m j then i else m.

Lemma other_inj : forall i j m n, other i j m = other i j n -> m = n.
Proof.
  intros i j m n. unfold other.
  destruct (Nat.eqb m i) eqn:E1; destruct (Nat.eqb n i) eqn:E2;
  destruct (Nat.eqb m j) eqn:E3; destruct (Nat.eqb n j) eqn:E4;
    rewrite ?Nat.eqb_eq, ?Nat.eqb_neq in *; congruence.
Qed.

(** Two objects exchange their buffers. *)
Lemma owners_swap : forall a h f i j x y s t,
  owners a h f -> a i = Some x -> a j = Some y -> f i = Some s -> f j = Some t ->
  owners (oput (oput a j (Some x)) i (Some y)) h (oput (oput f j (Some s)) i (Some t)).
Proof.
  intros a h f i j x y s t R Hi Hj Fi Fj.
  destruct (Nat.eq_dec i j) as [->|Hij].
  { eapply owners_ext; [eassumption| |]; intros m; unfold oput;
      (destruct (Nat.eqb m j) eqn:E; [|reflexivity]); apply Nat.eqb_eq in E; congruence. }
  pose proof (ow_obj _ _ _ R i) as Oi. pose proof (ow_obj _ _ _ R j) as Oj.
  rewrite Hi, Fi in Oi. rewrite Hj, Fj in Oj. constructor.
  - intros m. unfold oput. destruct (Nat.eqb m i) eqn:Em; [assumption|].
    destruct (Nat.eqb m j) eqn:En; [assumption|]. apply (ow_obj _ _ _ R m).
  - intros m n u v k Em En Ks Kt.
    assert (forall m s0, oput (oput f j (Some s)) i (Some t) m = Some s0 ->
              f (other i j m) = Some s0) as Hput.
    { intros m' s'. unfold oput, other. destruct (Nat.eqb m' i); [congruence|].
      destruct (Nat.eqb m' j); [congruence|auto]. }
    apply (other_inj i j). eapply (ow_apart _ _ _ R); eauto.
  - intros k cs Hl. destruct (ow_owner _ _ _ R _ _ Hl) as (m & u & Hu & Hk).
    destruct (Nat.eq_dec m i) as [->|Hmi].
    + exists j, u. unfold oput. destruct (Nat.eqb j i) eqn:E; [apply Nat.eqb_eq in E; congruence|].
      rewrite Nat.eqb_refl. split; congruence.
    + destruct (Nat.eq_dec m j) as [->|Hmj].
      * exists i, u. unfold oput. rewrite Nat.eqb_refl. split; congruence.
      * exists m, u. unfold oput. apply Nat.eqb_neq in Hmi, Hmj. now rewrite Hmi, Hmj.
Qed.

(** A new object takes over the buffer of another one. *)
Lemma owners_move : forall a h f i j y t,
  owners a h f -> a i = None -> a j = Some y -> f j = Some t ->
  owners (oput (oput a j (Some nothing)) i (Some y)) h
         (oput (oput f j (Some moved_buffer)) i (Some t)).
Proof.
  intros a h f i j y t R Hi Hj Fj.
  assert (i <> j) as Hij by congruence.
  pose proof (ow_obj _ _ _ R j) as Oj. rewrite Hj, Fj in Oj.
  pose proof (owners_none _ _ _ _ R Hi) as Fi. constructor.
  - intros m. unfold oput. destruct (Nat.eqb m i) eqn:Em; [assumption|].
    destruct (Nat.eqb m j) eqn:En; [|apply (ow_obj _ _ _ R m)]. apply rep_nothing.
  - intros m n u v k Em En Ks Kt.
    assert (forall m s0, oput (oput f j (Some moved_buffer)) i (Some t) m = Some s0 ->
              owner_of s0 = Some k -> f (other i j m) = Some s0) as Hput.
    { intros m' s'. unfold oput, other. destruct (Nat.eqb m' i); [congruence|].
      destruct (Nat.eqb m' j); [|auto]. intros E. injection E as <-. discriminate. }
    apply (other_inj i j). eapply (ow_apart _ _ _ R); eauto.
  - intros k cs Hl. destruct (ow_owner _ _ _ R _ _ Hl) as (m & u & Hu & Hk).
    assert (m <> i) as Hmi by congruence.
    destruct (Nat.eq_dec m j) as [->|Hmj].
    + exists i, u. unfold oput. rewrite Nat.eqb_refl. split; congruence.
    + exists m, u. unfold oput. apply Nat.eqb_neq in Hmi, Hmj. now rewrite Hmi, Hmj.
Qed.

End Owners.
