(** Properties C20-C25: the command registry as a hash map.

    The positive theorems hold for every key type with a correct equality and for every
    hash function, hence for every collision pattern.  The refutations use the names and
    the hash of the library. *)
From Coq Require Import Ascii String NArith ZArith Bool PeanoNat Lia List.
Import ListNotations.
From Verif Require Import Util Base UMap UMapSpec UMapProofs UMapMore SerializerProofs.

Definition eq_ok {K} (keqb : K -> K -> bool) : Prop := forall a b, keqb a b = true <-> a = b.

Lemma eq_refl_spec {K} (keqb : K -> K -> bool) : eq_ok keqb -> forall a b, reflect (a = b) (keqb a b).
Proof. intros H a b. apply iff_reflect. symmetry. apply H. Qed.

(** The map of the library: names are byte strings, hashed by Hash<StringView>. *)
Lemma names_ok : eq_ok bytes_eqb.
Proof. exact bytes_eqb_eq. Qed.

Notation A s n := (Add (lit s) n).
Notation R s := (Remove (lit s)).
Notation hist := (list (op bytes nat)).
Notation nrun sg h := (run bytes_eqb (hash_view sg) (h : hist)).
Notation nfind sg m s := (find bytes_eqb (hash_view sg) m (lit s)).

(** * C20  The registry is a map from names to commands *)

(** The full statement: every history succeeds, and then every name resolves as in the
    ideal map.  It is false: erase does not update the back link of the node that follows
    the relocated last node.  With assertions enabled the program then aborts... *)
Theorem C20_registry_is_map_refuted : forall sg,
  ~ (forall h : hist, exists m, nrun sg h = Done m /\ faithful bytes_eqb (hash_view sg) m h).
Proof.
  intros sg H.
  destruct (H [A "a" 1; A "b" 2; A "e" 3; A "i" 4; R "a"; R "b"; R "i"]) as (m & E & _).
  destruct sg; vm_compute in E; discriminate.
Qed.

(** ... and without any assertion failing a registered command becomes unreachable. *)
Theorem C20_registered_command_lost : forall sg, exists (h : hist) m,
  nrun sg h = Done m /\ ideal bytes_eqb h (lit "e") = Some 3 /\ nfind sg m "e" = Done None.
Proof.
  intros sg.
  exists [A "a" 1; A "b" 2; A "e" 3; A "i" 4; R "a"; R "b"; A "f" 5; R "i"; A "m" 6; R "f"].
  destruct sg; (eexists; split; [vm_compute; reflexivity|]; split; vm_compute; reflexivity).
Qed.

(** What holds: the registry is faithful after every history in which no removal meets a
    stale back link.  Missing for the full statement: histories with harmful removals, for
    which it is false. *)
Theorem C20_registry_is_map_partial :
  forall (K V : Type) keqb (hash : K -> Z), eq_ok keqb ->
  forall h : list (op K V), harmless_history keqb hash h ->
  exists m, run keqb hash h = Done m /\ faithful keqb hash m h.
Proof. intros K V keqb hash Hk0. pose proof (eq_refl_spec _ Hk0) as Hk. exact (harmless_faithful keqb hash Hk). Qed.

(** Two removals between clears are never harmful. *)
Theorem C20_two_removals :
  forall (K V : Type) keqb (hash : K -> Z), eq_ok keqb ->
  forall h : list (op K V), few_removals keqb 2 h ->
  exists m, run keqb hash h = Done m /\ faithful keqb hash m h.
Proof.
  intros K V keqb hash Hk0 h Hf. pose proof (eq_refl_spec _ Hk0) as Hk. apply harmless_faithful; [exact Hk|].
  eapply (few_harmless keqb hash Hk h 2 []); [lia| |exact Hf].
  split; cbn; [constructor|]. easy.
Qed.

(** Three can be. *)
Theorem C20_three_removals_refuted : forall sg,
  ~ (forall h : hist, few_removals bytes_eqb 3 h ->
     exists m, nrun sg h = Done m /\ faithful bytes_eqb (hash_view sg) m h).
Proof.
  intros sg H.
  destruct (H [A "a" 1; A "b" 2; A "e" 3; A "i" 4; R "a"; R "b"; R "i"]) as (m & E & _).
  - vm_compute. exact I.
  - destruct sg; vm_compute in E; discriminate.
Qed.

(** Removals are never harmful as long as no two live names share a bucket. *)
Theorem C20_no_collisions :
  forall (K V : Type) keqb (hash : K -> Z), eq_ok keqb ->
  forall h : list (op K V), collision_free keqb hash h ->
  exists m, run keqb hash h = Done m /\ faithful keqb hash m h.
Proof.
  intros K V keqb hash Hk0 h Hc. pose proof (eq_refl_spec _ Hk0) as Hk. apply harmless_faithful; [exact Hk|].
  apply (collision_free_harmless keqb hash Hk h empty_map shape0 (fun _ => None));
    [apply good_empty|easy|constructor|exact Hc].
Qed.

(** With the missing update added to erase (erase_fixed, not in the repository) the full
    statement holds. *)
Theorem C20_repaired :
  forall (K V : Type) keqb (hash : K -> Z), eq_ok keqb ->
  forall h : list (op K V),
  exists m, run_fixed keqb hash h = Done m /\ faithful keqb hash m h /\
    lists_contents (iterate m) (ideal keqb h).
Proof. intros K V keqb hash Hk0. pose proof (eq_refl_spec _ Hk0) as Hk. exact (fixed_faithful keqb hash Hk). Qed.

(** A harmless history with collisions, a rehash, an overwrite and four removals: "a",
    "e" and "i" share a bucket. *)
Definition ex_history : hist :=
  [A "a" 1; A "b" 2; A "e" 3; A "i" 4; A "e" 5; R "a"; R "zz"; R "b"; R "e"; A "a" 6; R "a"].

Example C20_ex_harmless : harmless_history bytes_eqb (hash_view true) ex_history.
Proof.
  vm_compute. repeat split; intuition discriminate.
Qed.

Example C20_ex_run : exists m,
  nrun true ex_history = Done m /\ nfind true m "i" = Done (Some 4) /\ nfind true m "e" = Done None.
Proof. eexists. split; [vm_compute; reflexivity|]. split; vm_compute; reflexivity. Qed.

Example C20_ex_two : few_removals bytes_eqb 2
  [A "a" 1; A "b" 2; A "e" 3; A "i" 4; R "a"; R "b"; Clear; A "e" 3; A "i" 4; R "e"; R "i"].
Proof. vm_compute. exact I. Qed.

Example C20_ex_collision_free : collision_free bytes_eqb (hash_view true)
  ([A "b" 1; A "c" 2; R "b"] : hist).
Proof.
  intros p q m Hp Hr a b Ha Hb Hab.
  assert (Hcase : p = [] \/ p = [A "b" 1] \/ p = [A "b" 1; A "c" 2] \/ p = [A "b" 1; A "c" 2; R "b"]).
  { destruct p as [|x [|y [|z [|u p]]]]; cbn in Hp; try (injection Hp; intros; subst); auto; discriminate. }
  destruct Hcase as [->|[->|[->| ->]]]; unfold ideal in Ha, Hb; cbn [fold_left ideal_step] in Ha, Hb.
  - easy.
  - destruct (bytes_eqb_spec a (lit "b")), (bytes_eqb_spec b (lit "b")); congruence.
  - vm_compute in Hr. injection Hr as <-.
    assert (Hor : forall x : bytes, (if bytes_eqb x (lit "c") then Some 2
        else if bytes_eqb x (lit "b") then Some 1 else None) <> None -> x = lit "c" \/ x = lit "b").
    { intros x Hx. destruct (bytes_eqb_spec x (lit "c")), (bytes_eqb_spec x (lit "b")); auto. easy. }
    destruct (Hor a Ha), (Hor b Hb); subst; try congruence; vm_compute; discriminate.
  - destruct (bytes_eqb_spec a (lit "b")), (bytes_eqb_spec b (lit "b")); try congruence.
    destruct (bytes_eqb_spec a (lit "c")), (bytes_eqb_spec b (lit "c")); congruence.
Qed.

(** * C21  Looking up a command always terminates *)

(** False: after this history the lookup of "i" runs through a cycle of nodes, for any
    number of steps, and no assertion has failed. *)
Theorem C21_lookup_terminates_refuted : forall sg, exists (h : hist) m,
  nrun sg h = Done m /\
  exists b first, computeBucketIndex (hash_view sg) m (lit "i") = Done b /\
    at_ (buckets m) b = Done first /\
    forall fuel, find_walk bytes_eqb fuel (nodes m) (lit "i") first = Fault Diverges.
Proof.
  intros sg.
  exists [A "f" 1; A "b" 2; A "e" 3; A "m" 4; R "f"; R "b"; A "a" 5; R "m"].
  destruct sg; (eexists; split; [vm_compute; reflexivity|];
    eexists _, _; split; [vm_compute; reflexivity|]; split; [vm_compute; reflexivity|];
    intros fuel; apply find_walk_diverges; [exact bytes_eqb_spec|vm_compute; reflexivity]).
Qed.

(** The model reports divergence only for walks that really never end. *)
Theorem C21_divergence_is_real :
  forall (K V : Type) keqb, eq_ok keqb ->
  forall (ns : list (node K V)) k first,
  find_walk keqb (S (length ns)) ns k first = Fault Diverges ->
  forall fuel, find_walk keqb fuel ns k first = Fault Diverges.
Proof. intros K V keqb Hk0 ns k first H fuel. pose proof (eq_refl_spec _ Hk0) as Hk. now apply find_walk_diverges. Qed.

Theorem C21_insert_divergence_is_real :
  forall (K V : Type) (ns : list (node K V)) new first,
  insert_walk (S (length ns)) ns new first = Fault Diverges ->
  forall fuel, insert_walk fuel ns new first = Fault Diverges.
Proof. intros K V ns new first H fuel. now apply insert_walk_diverges. Qed.

(** After a harmless history lookups, additions and harmless removals end.  Missing:
    other histories, where it is false. *)
Theorem C21_lookup_terminates_partial :
  forall (K V : Type) keqb (hash : K -> Z), eq_ok keqb ->
  forall h : list (op K V), harmless_history keqb hash h ->
  exists m, run keqb hash h = Done m /\
    (forall k, exists r, find keqb hash m k = Done r) /\
    (forall k v, exists m', insertOrAssign keqb hash m k v = Done m') /\
    (forall k, harmless_history keqb hash (h ++ [Remove k]) ->
       exists m', erase keqb hash m k = Done m').
Proof.
  intros K V keqb hash Hk0 h Hh. pose proof (eq_refl_spec _ Hk0) as Hk. destruct (harmless_good keqb hash Hk h Hh) as (m & s & E & G).
  exists m. split; [easy|]. split; [|split].
  - intros k. exists (ideal keqb h k). eapply good_find; eauto.
  - intros k v. destruct (good_add keqb hash Hk m s _ k v G) as (m' & E' & _). eauto.
  - intros k Hh'. destruct (harmless_faithful keqb hash Hk _ Hh') as (m' & E' & _).
    exists m'. unfold run in *.
    assert (Happ : forall st (m0 : umap K V) a b, run_from st m0 (a ++ b) =
      bind (run_from st m0 a) (fun m1 => run_from st m1 b)).
    { intros st m0 a. revert m0. induction a as [|o a IH]; intros m0 b; cbn; [easy|].
      destruct (st m0 o); cbn; [apply IH|easy]. }
    rewrite Happ, E in E'. cbn in E'. destruct (erase keqb hash m k) as [m1|f]; cbn in E'; congruence.
Qed.

Example C21_ex : harmless_history bytes_eqb (hash_view true) (ex_history ++ [R "i"]).
Proof.
  vm_compute. repeat split; intuition discriminate.
Qed.

(** * C22  Without removals the registry is a faithful map *)

Theorem C22_faithful_without_removals :
  forall (K V : Type) keqb (hash : K -> Z), eq_ok keqb ->
  forall h : list (op K V), no_removals h ->
  exists m, run keqb hash h = Done m /\ faithful keqb hash m h.
Proof.
  intros K V keqb hash Hk0 h Hn. pose proof (eq_refl_spec _ Hk0) as Hk. apply harmless_faithful; [exact Hk|].
  now apply no_removals_harmless.
Qed.

Example C22_ex : no_removals
  ([A "a" 1; A "b" 2; A "e" 3; A "a" 9; Clear; A "e" 4; A "i" 5; A "m" 6] : hist).
Proof. intros o Ho. cbn in Ho. intuition (subst; reflexivity). Qed.

(** * C23  Removals in reverse order of addition *)

Theorem C23_faithful_lifo :
  forall (K V : Type) keqb (hash : K -> Z), eq_ok keqb ->
  forall h : list (op K V), lifo keqb h ->
  exists m, run keqb hash h = Done m /\ faithful keqb hash m h.
Proof.
  intros K V keqb hash Hk0 h Hl. pose proof (eq_refl_spec _ Hk0) as Hk. apply harmless_faithful; [exact Hk|].
  apply (lifo_harmless keqb hash Hk h shape0 []); [easy|constructor|easy|exact Hl].
Qed.

Example C23_ex : lifo bytes_eqb
  ([A "a" 1; A "e" 2; A "i" 3; A "m" 4; R "m"; R "i"; R "q"; A "i" 5; R "i"; R "e"; R "a"] : hist).
Proof. vm_compute. repeat split; intros; reflexivity || (intuition discriminate). Qed.

(** * C24  The hash table stays at most full *)

(** For all histories, also those with harmful removals. *)
Theorem C24_at_most_full :
  forall (K V : Type) keqb (hash : K -> Z) (h : list (op K V)) m,
  run keqb hash h = Done m ->
  (Z.of_nat (size m) <= 2 ^ 24)%Z -> size m <= length (buckets m).
Proof.
  intros K V keqb hash h m E Hs.
  assert (H : at_most_full m).
  { eapply run_load; [|exact E]. split; cbn; lia. }
  unfold size in *. destruct H as [_ [H|H]]; lia.
Qed.

(** There is always a bucket, so the modulus is never zero. *)
Theorem C24_some_bucket :
  forall (K V : Type) keqb (hash : K -> Z) (h : list (op K V)) m,
  run keqb hash h = Done m -> 0 < length (buckets m).
Proof.
  intros K V keqb hash h m E.
  assert (H : at_most_full m); [|apply H].
  eapply run_load; [|exact E]. split; cbn; lia.
Qed.

(** The bound 2^24 is sharp: the comparison in single precision does not trigger a
    rehash for 2^24 + 1 entries in 2^24 buckets. *)
Theorem C24_bound_sharp :
  load_exceeds (Z.to_nat (2 ^ 24 + 1)) (Z.to_nat (2 ^ 24)) = false.
Proof. unfold load_exceeds. rewrite !Z2Nat.id by lia. vm_compute. reflexivity. Qed.

Example C24_ex : exists m, nrun true ex_history = Done m /\ size m = 1 /\ length (buckets m) = 4.
Proof. eexists. split; [vm_compute; reflexivity|]. split; reflexivity. Qed.

(** * C25  Iteration visits each registered entry exactly once *)

(** False in general: after a command has been lost, adding it again makes its name
    appear twice. *)
Theorem C25_iteration_refuted : forall sg,
  ~ (forall (h : hist) m, nrun sg h = Done m -> lists_contents (iterate m) (ideal bytes_eqb h)).
Proof.
  intros sg H.
  specialize (H [A "a" 1; A "b" 2; A "e" 3; A "i" 4; R "a"; R "b"; A "f" 5; R "i"; A "m" 6; R "f"; A "e" 7]).
  destruct sg; (edestruct H as [Hd _]; [vm_compute; reflexivity|]; cbn in Hd;
    inversion Hd; subst; inversion H3; subst; apply H4; left; reflexivity).
Qed.

Theorem C25_iteration_partial :
  forall (K V : Type) keqb (hash : K -> Z), eq_ok keqb ->
  forall h : list (op K V), harmless_history keqb hash h ->
  exists m, run keqb hash h = Done m /\ lists_contents (iterate m) (ideal keqb h) /\
    size m = length (iterate m).
Proof. intros K V keqb hash Hk0. pose proof (eq_refl_spec _ Hk0) as Hk. exact (harmless_contents keqb hash Hk). Qed.

Example C25_ex : exists m, nrun true (ex_history) = Done m /\ iterate m = [(lit "i", 4)].
Proof. eexists. split; [vm_compute; reflexivity|]. reflexivity. Qed.

(** * Assumptions *)
Print Assumptions C20_registry_is_map_refuted.
Print Assumptions C20_registered_command_lost.
Print Assumptions C20_registry_is_map_partial.
Print Assumptions C20_two_removals.
Print Assumptions C20_three_removals_refuted.
Print Assumptions C20_no_collisions.
Print Assumptions C20_repaired.
Print Assumptions C21_lookup_terminates_refuted.
Print Assumptions C21_divergence_is_real.
Print Assumptions C21_insert_divergence_is_real.
Print Assumptions C21_lookup_terminates_partial.
Print Assumptions C22_faithful_without_removals.
Print Assumptions C23_faithful_lifo.
Print Assumptions C24_at_most_full.
Print Assumptions C24_some_bucket.
Print Assumptions C24_bound_sharp.
Print Assumptions C25_iteration_refuted.
Print Assumptions C25_iteration_partial.
