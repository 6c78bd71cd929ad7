(** Property C72: the work of the command registry. *)
From Coq Require Import Ascii String NArith ZArith Bool PeanoNat Lia List.
Import ListNotations.
From Verif Require Import Util Base UMap UMapSpec UMapProofs UMapMore UMapCost UMapCostSpec
  UMapCostProofs P_UMap.
Local Notation length := List.length.

(** * The counted functions compute what those of UMap.v compute *)

Theorem C72_same :
  forall (K V : Type) keqb (hash : K -> Z) (h : list (op K V)),
  snd (run_w keqb hash h) = run keqb hash h /\
  (forall (m : umap K V) k, snd (find_w keqb hash m k) = find keqb hash m k) /\
  (forall (m : umap K V) o, snd (step_w keqb hash m o) = step keqb hash m o).
Proof.
  intros K V keqb hash h. split; [apply run_same|]. split; intros; [apply find_same|apply step_same].
Qed.

(** * Lookups *)

(** In any map, also one that removals have damaged: a lookup that ends computes one hash
    and compares no key twice. *)
Theorem C72_lookup :
  forall (K V : Type) keqb (hash : K -> Z) (m : umap K V) k, eq_ok keqb ->
  find keqb hash m k <> Fault Diverges ->
  hashes (fst (find_w keqb hash m k)) = 1 /\
  matches (fst (find_w keqb hash m k)) <= size m /\
  visits (fst (find_w keqb hash m k)) = 0 /\
  relinks (fst (find_w keqb hash m k)) = 0 /\
  resets (fst (find_w keqb hash m k)) = 0.
Proof.
  intros K V keqb hash m k Heq H. rewrite find_w_fst.
  destruct (findNodeIndex_cost keqb hash m k) as (-> & -> & -> & ->).
  split; [easy|]. split; [|easy]. apply findNodeIndex_matches; [now apply eq_refl_spec|].
  intros E. apply H. unfold find. now rewrite E.
Qed.

(** In a map that no harmful removal has damaged it compares only with registered names
    that share its bucket. *)
Theorem C72_lookup_bucket :
  forall (K V : Type) keqb (hash : K -> Z) (h : list (op K V)) m k, eq_ok keqb ->
  harmless_history keqb hash h -> run keqb hash h = Done m ->
  matches (fst (find_w keqb hash m k))
  <= length (rivals hash (length (buckets m)) k (map fst (iterate m))).
Proof.
  intros K V keqb hash h m k Heq Hh E.
  destruct (harmless_good keqb hash (eq_refl_spec keqb Heq) h Hh) as (m' & s & E' & G).
  assert (m' = m) by congruence. subst m'.
  eapply good_find_cost. exact G.
Qed.

(** Without removals: exactly the names before it in the order of registration, among
    those that share its bucket. *)
Theorem C72_lookup_exact :
  forall (K V : Type) keqb (hash : K -> Z) (h : list (op K V)) m k, eq_ok keqb ->
  no_removals h -> run keqb hash h = Done m ->
  find_w keqb hash m k =
  (Work 1 (position keqb k (rivals hash (length (buckets m)) k (registered keqb h))) 0 0 0,
   Done (ideal keqb h k)).
Proof.
  intros K V keqb hash h m k Heq Hh E.
  destruct (plain_run keqb hash (eq_refl_spec keqb Heq) h Hh) as (m' & E' & G).
  assert (m' = m) by congruence. subst m'.
  apply plain_find; [now apply eq_refl_spec|exact G].
Qed.

(** * Additions *)

(** Without removals: exactly [add_work]. *)
Theorem C72_add_exact :
  forall (K V : Type) keqb (hash : K -> Z) (h : list (op K V)) m k v, eq_ok keqb ->
  no_removals h -> run keqb hash h = Done m ->
  fst (step_w keqb hash m (Add k v)) =
  add_work keqb hash (length (buckets m)) (registered keqb h) k.
Proof.
  intros K V keqb hash h m k v Heq Hh E.
  destruct (plain_run keqb hash (eq_refl_spec keqb Heq) h Hh) as (m' & E' & G).
  assert (m' = m) by congruence. subst m'. cbn [step_w].
  eapply plain_add; [now apply eq_refl_spec|exact G].
Qed.

(** * Rehashing is paid for by the additions *)

(** For every history, also with harmful removals, and also if it ends in a fault. *)
Theorem C72_rehash_amortised :
  forall (K V : Type) keqb (hash : K -> Z) (h : list (op K V)), eq_ok keqb ->
  relinks (fst (run_w keqb hash h)) <= 2 * adds h /\
  resets (fst (run_w keqb hash h)) <= 1 + 4 * adds h + clears h * (1 + 2 * adds h) /\
  hashes (fst (run_w keqb hash h)) <= 4 * adds h + removals h.
Proof.
  intros K V keqb hash h Heq. rewrite run_w_unfold. unfold plus_work.
  cbn [fst hashes matches visits relinks resets].
  destruct (run_cost keqb hash (eq_refl_spec keqb Heq) h empty_map) as (H1 & H2 & H3 & _); [cbn; lia|].
  cbn [empty_map nodes buckets length credit] in *.
  assert (clears h * Nat.max 1 (2 * (0 + adds h)) <= clears h * (1 + 2 * adds h))
    by (apply Nat.mul_le_mono; lia).
  split; [lia|]. split; lia.
Qed.

(** The number of buckets stays proportional to the number of additions. *)
Theorem C72_buckets :
  forall (K V : Type) keqb (hash : K -> Z) (h : list (op K V)) m, eq_ok keqb ->
  run keqb hash h = Done m -> length (buckets m) <= Nat.max 1 (2 * adds h).
Proof.
  intros K V keqb hash h m Heq E.
  destruct (run_cost keqb hash (eq_refl_spec keqb Heq) h empty_map) as (_ & _ & _ & H); [cbn; lia|].
  destruct (H m E) as (H1 & _). cbn [empty_map nodes buckets length] in H1. lia.
Qed.

(** * The worst case *)

(** A history that completes is at worst quadratic. *)
Theorem C72_at_most_quadratic :
  forall (K V : Type) keqb (hash : K -> Z) (h : list (op K V)) m, eq_ok keqb ->
  run keqb hash h = Done m ->
  matches (fst (run_w keqb hash h)) <= length h * adds h /\
  visits (fst (run_w keqb hash h)) <= 3 * adds h * adds h.
Proof.
  intros K V keqb hash h m Heq E.
  destruct (run_cost keqb hash (eq_refl_spec keqb Heq) h empty_map) as (_ & H2 & _ & H); [cbn; lia|].
  destruct (H m E) as (_ & _ & H5 & H6). rewrite run_w_unfold. unfold plus_work.
  cbn [fst matches visits Nat.add]. cbn [empty_map nodes buckets length credit Nat.add] in *.
  split; [easy|]. cbv zeta in *. nia.
Qed.

(** And it can be quadratic: with the hash of the library there are, for every [n], 2^n
    names of 2n characters such that finding the i-th takes i comparisons and registering
    them takes 2^n (2^n - 1) / 2 of them, and as many steps along chains. *)
Theorem C72_worst_case :
  forall sg n (V : Type) (v : bytes -> V),
  let l := namesakes n in
  let h := map (fun k => Add k (v k)) l in
  NoDup l /\ length l = 2 ^ n /\ (forall k, In k l -> length k = 2 * n) /\
  exists m, run bytes_eqb (hash_view sg) h = Done m /\ size m = 2 ^ n /\
    (forall i k, nth_error l i = Some k ->
       find_w bytes_eqb (hash_view sg) m k = (Work 1 (S i) 0 0 0, Done (Some (v k)))) /\
    2 * matches (fst (run_w bytes_eqb (hash_view sg) h)) = 2 ^ n * (2 ^ n - 1) /\
    2 ^ n * (2 ^ n - 1) <= 2 * visits (fst (run_w bytes_eqb (hash_view sg) h)).
Proof.
  intros sg n V v l h. split; [apply namesakes_nodup|]. split; [apply namesakes_count|].
  split; [apply namesakes_length|].
  pose proof (eq_refl_spec bytes_eqb names_ok) as Hspec.
  assert (Hnr : no_removals h).
  { intros o Ho. unfold h in Ho. apply in_map_iff in Ho. destruct Ho as (k & <- & _). easy. }
  destruct (plain_run bytes_eqb (hash_view sg) Hspec h Hnr) as (m & E & G).
  assert (Hreg : registered bytes_eqb h = l).
  { unfold registered, h. rewrite (registered_adds _ Hspec l v []); [easy|apply namesakes_nodup]. }
  rewrite Hreg in G. exists m. split; [exact E|].
  pose proof (plain_length _ _ _ _ G) as Hlen. fold (size m) in Hlen.
  rewrite (namesakes_count n : length l = 2 ^ n) in Hlen. split; [exact Hlen|].
  destruct (namesakes_hash sg n 5381) as (z & Hz).
  assert (Hz' : forall x, In x l -> hash_view sg x = z) by exact Hz.
  split; [|].
  - intros i k Hi. rewrite (plain_find bytes_eqb (hash_view sg) Hspec m l _ k G).
    pose proof (nth_error_In _ _ Hi) as Hin. f_equal.
    + rewrite rivals_all by (intros x Hx; rewrite !Hz'; easy).
      rewrite (position_nth _ Hspec l i k); [easy|apply namesakes_nodup|easy].
    + f_equal. unfold h, ideal.
      assert (Hgen : forall (r : list bytes) f, In k r \/ f k = Some (v k) ->
        fold_left (ideal_step bytes_eqb) (map (fun k => Add k (v k)) r) f k = Some (v k)).
      { induction r as [|x r IH]; intros f Hr; cbn [map fold_left].
        - destruct Hr as [[]|Hr]. exact Hr.
        - apply IH. cbn [ideal_step]. destruct (Hspec k x) as [->|Hx]; [now right|].
          destruct Hr as [[->|Hr]|Hr]; [easy|now left|now right]. }
      apply Hgen. now left.
  - destruct (same_hash_run bytes_eqb (hash_view sg) Hspec l v z empty_map [] _
                (plain_empty (hash_view sg))) as (H1 & H2).
    + apply namesakes_nodup.
    + exact Hz'.
    + cbv zeta in H1, H2. fold h in H1, H2. rewrite run_w_unfold. unfold plus_work.
      cbn [fst matches visits Nat.add].
      rewrite (namesakes_count n : length l = 2 ^ n) in H1. cbn [length] in H1.
      assert (0 < 2 ^ n) by (apply Nat.neq_0_lt_0, Nat.pow_nonzero; easy).
      assert (Hm : 2 * matches (fst (run_w_from bytes_eqb (hash_view sg) empty_map h)) = 2 ^ n * (2 ^ n - 1)).
      { rewrite Nat.mul_sub_distr_l. lia. }
      split; lia.
Qed.

(** Hence no bound on the comparisons of one lookup holds for all registries. *)
Theorem C72_no_constant_bound :
  forall sg c, exists (h : list (op bytes nat)) m k,
  no_removals h /\ run bytes_eqb (hash_view sg) h = Done m /\
  c < matches (fst (find_w bytes_eqb (hash_view sg) m k)).
Proof.
  intros sg c.
  destruct (C72_worst_case sg c nat (fun _ => 0)) as (_ & Hc & _ & m & E & _ & Hf & _).
  pose proof (Nat.pow_gt_lin_r 2 c ltac:(lia)) as Hp.
  destruct (nth_error (namesakes c) c) as [k|] eqn:Hk.
  2:{ apply nth_error_None in Hk. unfold bytes in *. lia. }
  eexists _, m, k. split; [|split; [exact E|]].
  - intros o Ho. apply in_map_iff in Ho. destruct Ho as (x & <- & _). easy.
  - rewrite (Hf c k Hk). cbn. lia.
Qed.

(** * Examples *)

(** Five names in order: rehashes at two, three and five entries. *)
Definition ex_adds : list (op bytes nat) := [A "x" 1; A "y" 2; A "z" 3; A "p" 4; A "q" 5; A "x" 6].

Example C72_ex_run :
  fst (run_w bytes_eqb (hash_view true) ex_adds) = Work 18 5 3 7 15 /\
  adds ex_adds = 6 /\ no_removals ex_adds /\
  registered bytes_eqb ex_adds = [lit "x"; lit "y"; lit "z"; lit "p"; lit "q"].
Proof.
  split; [vm_compute; reflexivity|]. split; [reflexivity|]. split; [|vm_compute; reflexivity].
  intros o Ho. repeat (destruct Ho as [<-|Ho]; [reflexivity|]). destruct Ho.
Qed.

Example C72_ex_harmless : harmless_history bytes_eqb (hash_view true) ex_history.
Proof. vm_compute. repeat split; intros; intuition discriminate. Qed.

Example C72_ex_namesakes :
  namesakes 2 = [lit "abab"; lit "abbA"; lit "bAab"; lit "bAbA"] /\
  map (hash_view true) (namesakes 2) = repeat (hash_view true (lit "abab")) 4.
Proof. split; vm_compute; reflexivity. Qed.

(** After removals, a lookup that ends. *)
Example C72_ex_lookup : exists m,
  nrun true ex_history = Done m /\ find bytes_eqb (hash_view true) m (lit "zz") <> Fault Diverges.
Proof. eexists. split; [vm_compute; reflexivity|]. vm_compute. discriminate. Qed.

(** * Assumptions *)
Print Assumptions C72_same.
Print Assumptions C72_lookup.
Print Assumptions C72_lookup_bucket.
Print Assumptions C72_lookup_exact.
Print Assumptions C72_add_exact.
Print Assumptions C72_rehash_amortised.
Print Assumptions C72_buckets.
Print Assumptions C72_at_most_quadratic.
Print Assumptions C72_worst_case.
Print Assumptions C72_no_constant_bound.
