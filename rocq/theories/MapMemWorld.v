(** Programs with registries on memory and pointers to their commands do what
    MapMemSpec.v says. *)
From Coq Require Import ZArith Bool PeanoNat Lia List.
From Verif Require Import Util Base Mem MemProofs MemOwners VectorMem VectorMemProofs UMap UMapRel.
From Verif Require Import MapMem MapMemSpec MapMemProofs MapMemErase.
Import ListNotations.

(** ** Variables *)

Definition look {X} (l : list (option X)) (i : nat) : option X :=
  match nth_error l i with Some (Some x) => Some x | _ => None end.

Lemma look_lt {X} (l : list (option X)) i x : look l i = Some x -> i < length l.
Proof. unfold look. intros H. apply nth_error_Some. destruct (nth_error l i); congruence. Qed.

Lemma look_set {X} (l : list (option X)) b o i : b < length l -> look (UMap.set_nth l b o) i = oput (look l) b o i.
Proof.
  intros L. unfold look, oput. destruct (i =? b) eqn:E.
  - apply Nat.eqb_eq in E. subst i. rewrite uset_nth_eq by exact L. now destruct o.
  - apply Nat.eqb_neq in E. now rewrite uset_nth_neq by congruence.
Qed.

Lemma look_app {X} (l : list (option X)) o i : look (l ++ [o]) i = oput (look l) (length l) o i.
Proof.
  unfold look, oput. destruct (i =? length l) eqn:E.
  - apply Nat.eqb_eq in E. subst i. rewrite nth_error_app2, Nat.sub_diag by lia. now destruct o.
  - apply Nat.eqb_neq in E. destruct (Nat.lt_ge_cases i (length l)) as [L|L].
    + now rewrite nth_error_app1 by exact L.
    + assert (nth_error (l ++ [o]) i = None) as -> by (apply nth_error_None; rewrite app_length; cbn; lia).
      assert (nth_error l i = None) as -> by (apply nth_error_None; lia). reflexivity.
Qed.

Lemma look_past {X} (l : list (option X)) i : length l <= i -> look l i = None.
Proof. intros L. unfold look. apply nth_error_None in L. now rewrite L. Qed.

Lemma uset_id {X} (l : list X) : forall b x, nth_error l b = Some x -> UMap.set_nth l b x = l.
Proof. induction l as [|y l IH]; intros [|b] x; cbn; try discriminate; [now intros [= ->]|]. intros H. now rewrite IH. Qed.

Lemma look_nth {X} (l : list (option X)) i x : look l i = Some x <-> nth_error l i = Some (Some x).
Proof. unfold look. destruct (nth_error l i) as [[y|]|]; split; congruence. Qed.

Lemma map_oput {X Y} (F : X -> Y) f b (o : option X) i :
  option_map F (oput f b o i) = oput (fun j => option_map F (f j)) b (option_map F o) i.
Proof. unfold oput. now destruct (i =? b). Qed.

Section MapMemWorld.
Context {K V : Type}.
Variable keqb : K -> K -> bool.
Variable hash : K -> Z.
Variable movedK : K -> K.
Variable movedV : V -> V.
Variable sizeN sizeI W : nat.
Hypothesis sizeI_pos : 0 < sizeI.
Hypothesis sizeN_big : 3 * sizeI <= sizeN.
Hypothesis sizeN_fits : sizeN < W.

Implicit Types (h : mheap K V) (m : mmap K V) (u : umap K V) (g : @registry K V) (s : @sworld K V) (w : mworld K V).
Local Notation rep := (rep sizeN sizeI W).
Local Notation ok := (ok W).
Local Notation enc := (enc W).
Local Notation encn := (encn W).
Local Notation vrepB := (vrep sizeI W).
Local Notation vrepN := (vrep sizeN W).

Definition blist g : list nat := map enc (buckets (g_map g)).
Definition nlist g : list (mnode K V) := map encn (nodes (g_map g)).

Record owns h (fm : nat -> option (mmap K V)) (fr : nat -> option (@registry K V)) : Prop := Owns {
  own_b : owners vrepB (fun i => option_map blist (fr i)) (h_buckets h) (fun i => option_map (@mm_buckets K V) (fm i));
  own_n : owners vrepN (fun i => option_map nlist (fr i)) (h_nodes h) (fun i => option_map (@mm_nodes K V) (fm i))
}.

Lemma owns_ext h fm fr fm' fr' : owns h fm fr -> (forall i, fm i = fm' i) -> (forall i, fr i = fr' i) -> owns h fm' fr'.
Proof.
  intros [A B] E F. constructor.
  - eapply owners_ext; [exact A| |]; intros i; cbn; now rewrite ?E, ?F.
  - eapply owners_ext; [exact B| |]; intros i; cbn; now rewrite ?E, ?F.
Qed.

Lemma owns_some h fm fr i g : owns h fm fr -> fr i = Some g -> exists m, fm i = Some m /\
  vrepB (h_buckets h) (mm_buckets m) (blist g) /\ vrepN (h_nodes h) (mm_nodes m) (nlist g).
Proof.
  intros [A B] E. pose proof (ow_obj _ _ _ _ A i) as HA. pose proof (ow_obj _ _ _ _ B i) as HB.
  cbn in HA, HB. rewrite E in HA, HB. cbn in HA, HB. destruct (fm i) as [m|]; [|contradiction]. cbn in HA, HB. eauto.
Qed.

Lemma owns_none h fm fr i : owns h fm fr -> fr i = None -> fm i = None.
Proof.
  intros [A B] E. pose proof (ow_obj _ _ _ _ A i) as HA. cbn in HA. rewrite E in HA. cbn in HA.
  destruct (fm i); [contradiction|reflexivity].
Qed.

Definition bowner (o : option (mmap K V)) := match o with Some m => owner_of (mm_buckets m) | None => None end.
Definition nowner (o : option (mmap K V)) := match o with Some m => owner_of (mm_nodes m) | None => None end.

Lemma owns_step h fm fr b h' om og : owns h fm fr ->
  evolves (h_buckets h) (bowner (fm b)) (h_buckets h') (bowner om) ->
  evolves (h_nodes h) (nowner (fm b)) (h_nodes h') (nowner om) ->
  match om, og with Some m, Some g => rep h' m (g_map g) | None, None => True | _, _ => False end ->
  owns h' (oput fm b om) (oput fr b og).
Proof.
  intros [A B] EA EB R. constructor.
  - eapply owners_ext; [|intros i; symmetry; apply map_oput|intros i; symmetry; apply map_oput].
    eapply (owners_step vrepB (vrep_live sizeI W) (vrep_frame sizeI W)); [exact A|reflexivity| |].
    + cbn beta. destruct (fm b), om; exact EA.
    + destruct om, og; cbn; try contradiction; [apply (rp_b _ _ _ _ _ _ R)|exact I].
  - eapply owners_ext; [|intros i; symmetry; apply map_oput|intros i; symmetry; apply map_oput].
    eapply (owners_step vrepN (vrep_live sizeN W) (vrep_frame sizeN W)); [exact B|reflexivity| |].
    + cbn beta. destruct (fm b), om; exact EB.
    + destruct om, og; cbn; try contradiction; [apply (rp_n _ _ _ _ _ _ R)|exact I].
Qed.

Lemma owns_swap h fm fr i j m n g g' : owns h fm fr -> fm i = Some m -> fm j = Some n -> fr i = Some g -> fr j = Some g' ->
  owns h (oput (oput fm j (Some m)) i (Some n)) (oput (oput fr j (Some g)) i (Some g')).
Proof.
  intros [A B] E1 E2 E3 E4. constructor.
  - eapply owners_ext; [apply (owners_swap vrepB _ _ _ i j (blist g) (blist g') (mm_buckets m) (mm_buckets n) A)|..];
      cbn; rewrite ?E1, ?E2, ?E3, ?E4; try reflexivity;
      intros k; rewrite !map_oput; unfold oput; destruct (k =? i); [reflexivity| |reflexivity|]; now destruct (k =? j).
  - eapply owners_ext; [apply (owners_swap vrepN _ _ _ i j (nlist g) (nlist g') (mm_nodes m) (mm_nodes n) B)|..];
      cbn; rewrite ?E1, ?E2, ?E3, ?E4; try reflexivity;
      intros k; rewrite !map_oput; unfold oput; destruct (k =? i); [reflexivity| |reflexivity|]; now destruct (k =? j).
Qed.

Definition moved_map : mmap K V := MMap moved_buffer moved_buffer.

Lemma owns_move h fm fr i j n g' : owns h fm fr -> fr i = None -> fm j = Some n -> fr j = Some g' ->
  owns h (oput (oput fm j (Some moved_map)) i (Some n)) (oput (oput fr j (Some (void_registry (K := K) (V := V)))) i (Some g')).
Proof.
  intros [A B] E1 E2 E3. constructor.
  - eapply owners_ext; [apply (owners_move vrepB [] (vrep_nothing sizeI W) _ _ _ i j (blist g') (mm_buckets n) A)|..];
      cbn; rewrite ?E1, ?E2, ?E3; try reflexivity;
      intros k; rewrite !map_oput; unfold oput; destruct (k =? i); [reflexivity| |reflexivity|]; now destruct (k =? j).
  - eapply owners_ext; [apply (owners_move vrepN [] (vrep_nothing sizeN W) _ _ _ i j (nlist g') (mm_nodes n) B)|..];
      cbn; rewrite ?E1, ?E2, ?E3; try reflexivity;
      intros k; rewrite !map_oput; unfold oput; destruct (k =? i); [reflexivity| |reflexivity|]; now destruct (k =? j).
Qed.

(** ** The relation *)

Definition penc (p : option (nat * nat)) : node_ptr (K := K) (V := V) :=
  match p with Some (id, i) => At id i | None => Null end.

Definition agree m g : Prop :=
  ok (g_map g) /\ owner_of (mm_nodes m) = g_shelf g /\ m_capacity (mm_nodes m) = g_length g.

Record wrel w s : Prop := Wrel {
  w_own : owns (mw_heap w) (look (mw_maps w)) (look (s_regs s));
  w_len : length (mw_maps w) = length (s_regs s);
  w_reg : forall b m g, look (mw_maps w) b = Some m -> look (s_regs s) b = Some g -> agree m g;
  w_next : length (blocks (h_nodes (mw_heap w))) = s_next s;
  w_ptrs : mw_ptrs w = map penc (s_ptrs s);
  w_old : forall id i, In (Some (id, i)) (s_ptrs s) -> id < s_next s;
  w_place : forall id i b g, In (Some (id, i)) (s_ptrs s) -> look (s_regs s) b = Some g -> g_shelf g = Some id ->
              i < g_length g
}.

Lemma wrel_rep w s b g : wrel w s -> look (s_regs s) b = Some g ->
  exists m, look (mw_maps w) b = Some m /\ rep (mw_heap w) m (g_map g) /\ agree m g.
Proof.
  intros R E. destruct (owns_some _ _ _ _ _ (w_own _ _ R) E) as (m & Em & B & N).
  pose proof (w_reg _ _ R _ _ _ Em E) as A. exists m. split; [exact Em|]. split; [|exact A].
  constructor; [exact B|exact N|apply A].
Qed.

(** Two registries never share a shelf. *)
Lemma shelf_unique w s b c g g' id : wrel w s -> look (s_regs s) b = Some g -> look (s_regs s) c = Some g' ->
  g_shelf g = Some id -> g_shelf g' = Some id -> b = c.
Proof.
  intros R Eb Ec Gb Gc.
  destruct (wrel_rep _ _ _ _ R Eb) as (m & Em & _ & _ & Om & _).
  destruct (wrel_rep _ _ _ _ R Ec) as (n & En & _ & _ & On & _).
  eapply (ow_apart _ _ _ _ (own_n _ _ _ (w_own _ _ R)) b c (mm_nodes m) (mm_nodes n) id);
    [cbn; now rewrite Em|cbn; now rewrite En|congruence|congruence].
Qed.

Lemma shelf_old w s b g id : wrel w s -> look (s_regs s) b = Some g -> g_shelf g = Some id -> id < s_next s.
Proof.
  intros R Eb Gb. destruct (wrel_rep _ _ _ _ R Eb) as (m & Em & Rm & _ & Om & _).
  destruct (vrep_live _ _ _ _ _ id (rp_n _ _ _ _ _ _ Rm)) as (cs & L); [congruence|].
  rewrite <- (w_next _ _ R). apply nth_error_Some. unfold live in L. congruence.
Qed.

Lemma wrel_start : wrel (mstart (K := K) (V := V)) (sstart (K := K) (V := V)).
Proof.
  assert (L : forall X i, look (@nil (option X)) i = None) by (intros X [|i]; reflexivity).
  constructor; cbn; try reflexivity; try contradiction.
  - constructor; constructor; cbn; intros; rewrite ?L in *; cbn in *; try discriminate; try exact I;
      unfold live in H; cbn in H; destruct k; discriminate.
  - intros b m g H. rewrite L in H. discriminate.
Qed.

(** Registry [b] is replaced and pointers [ps] are obtained. *)
Lemma wrel_put w s b m g h' m' g' ps next :
  wrel w s -> look (mw_maps w) b = Some m -> look (s_regs s) b = Some g ->
  evolves (h_buckets (mw_heap w)) (owner_of (mm_buckets m)) (h_buckets h') (owner_of (mm_buckets m')) ->
  evolves (h_nodes (mw_heap w)) (owner_of (mm_nodes m)) (h_nodes h') (owner_of (mm_nodes m')) ->
  rep h' m' (g_map g') -> owner_of (mm_nodes m') = g_shelf g' -> m_capacity (mm_nodes m') = g_length g' ->
  length (blocks (h_nodes h')) = next -> s_next s <= next ->
  (g_shelf g' = g_shelf g /\ g_length g' = g_length g \/ g_shelf g' = Some (s_next s)) ->
  (forall id i, In (Some (id, i)) ps -> g_shelf g' = Some id /\ i < g_length g') ->
  wrel (MWorld h' (UMap.set_nth (mw_maps w) b (Some m')) (map penc ps ++ mw_ptrs w))
       (SWorld (UMap.set_nth (s_regs s) b (Some g')) (ps ++ s_ptrs s) next).
Proof.
  intros R Em Eg EB EN Rep Ow Cap Len Grow Shelf New.
  pose proof (look_lt _ _ _ Em) as Lm. pose proof (look_lt _ _ _ Eg) as Lg.
  assert (O : owns h' (look (UMap.set_nth (mw_maps w) b (Some m'))) (look (UMap.set_nth (s_regs s) b (Some g')))).
  { eapply owns_ext; [|intros i; symmetry; now apply look_set|intros i; symmetry; now apply look_set].
    eapply owns_step; [exact (w_own _ _ R)|rewrite Em; exact EB|rewrite Em; exact EN|exact Rep]. }
  assert (A : forall c n k, look (UMap.set_nth (mw_maps w) b (Some m')) c = Some n ->
              look (UMap.set_nth (s_regs s) b (Some g')) c = Some k -> agree n k).
  { intros c n k. rewrite !look_set by assumption. unfold oput. destruct (c =? b).
    - intros [= <-] [= <-]. split; [apply (rp_ok _ _ _ _ _ _ Rep)|now split].
    - apply (w_reg _ _ R). }
  assert (Snew : forall id, g_shelf g' = Some id -> id < next).
  { intros id H. destruct (owns_some _ _ _ b g' O) as (n & En & _ & VN).
    { rewrite look_set by exact Lg. unfold oput. now rewrite Nat.eqb_refl. }
    rewrite look_set in En by exact Lm. unfold oput in En. rewrite Nat.eqb_refl in En. injection En as <-.
    destruct (vrep_live _ _ _ _ _ id VN) as (cs & L); [congruence|]. rewrite <- Len. apply nth_error_Some.
    unfold live in L. congruence. }
  constructor; cbn [mw_heap mw_maps mw_ptrs s_regs s_ptrs s_next].
  - exact O.
  - rewrite !uset_length. apply (w_len _ _ R).
  - exact A.
  - exact Len.
  - rewrite map_app, (w_ptrs _ _ R). reflexivity.
  - intros id i H. apply in_app_or in H. destruct H as [H|H].
    + apply Snew. eapply (New _ _ H).
    + eapply Nat.lt_le_trans; [exact (w_old _ _ R _ _ H)|exact Grow].
  - intros id i c k H Ek Gk. rewrite look_set in Ek by exact Lg. unfold oput in Ek.
    destruct (c =? b) eqn:Ec.
    + injection Ek as <-. apply in_app_or in H. destruct H as [H|H]; [apply (New _ _ H)|].
      destruct Shelf as [(S1 & S2)|S1].
      * rewrite S2. eapply (w_place _ _ R); [exact H|exact Eg|congruence].
      * pose proof (w_old _ _ R _ _ H). rewrite S1 in Gk. injection Gk as <-. lia.
    + apply in_app_or in H. destruct H as [H|H].
      2: { eapply (w_place _ _ R); eassumption. }
      destruct (New _ _ H) as (G' & _). apply Nat.eqb_neq in Ec. exfalso. apply Ec.
      assert (Hc : look (UMap.set_nth (s_regs s) b (Some g')) c = Some k).
      { rewrite look_set by exact Lg. unfold oput. apply Nat.eqb_neq in Ec. now rewrite Ec. }
      assert (Hb : look (UMap.set_nth (s_regs s) b (Some g')) b = Some g').
      { rewrite look_set by exact Lg. unfold oput. now rewrite Nat.eqb_refl. }
      destruct (owns_some _ _ _ _ _ O Hc) as (n1 & En1 & _). destruct (owns_some _ _ _ _ _ O Hb) as (n2 & En2 & _).
      destruct (A _ _ _ En1 Hc) as (_ & O1 & _). destruct (A _ _ _ En2 Hb) as (_ & O2 & _).
      eapply (ow_apart _ _ _ _ (own_n _ _ _ O) c b (mm_nodes n1) (mm_nodes n2) id);
        [cbn; now rewrite En1|cbn; now rewrite En2|congruence|congruence].
Qed.

(** Both sides name the same variable. *)
Lemma var_ok w s b : wrel w s ->
  (exists m g, mvar w b = Done m /\ svar s b = Done g /\ look (mw_maps w) b = Some m /\ look (s_regs s) b = Some g /\
     rep (mw_heap w) m (g_map g) /\ agree m g) \/
  (mvar w b = Fault UseAfterFree /\ svar s b = Fault UseAfterFree).
Proof.
  intros R. unfold mvar, svar. destruct (look (s_regs s) b) as [g|] eqn:E.
  - left. destruct (wrel_rep _ _ _ _ R E) as (m & Em & Rm & A). exists m, g.
    apply look_nth in E as E'. apply look_nth in Em as Em'. rewrite E', Em'. repeat (split; [first [reflexivity|assumption]|]). exact A.
  - right. pose proof (owns_none _ _ _ _ (w_own _ _ R) E) as En. unfold look in E, En.
    destruct (nth_error (s_regs s) b) as [[|]|], (nth_error (mw_maps w) b) as [[|]|]; try discriminate; now split.
Qed.

Lemma ptr_place m g h i : rep h m (g_map g) -> agree m g -> i < length (nodes (g_map g)) ->
  ptr m i = penc (place g i) /\ exists id, place g i = Some (id, i) /\ g_shelf g = Some id /\ i < g_length g.
Proof.
  intros R (_ & O & C) L. pose proof (rp_n _ _ _ _ _ _ R) as Rn. unfold ptr, place. rewrite <- O.
  destruct Rn as [H1 _ _ _ H5|k cap H].
  - apply map_eq_nil in H5. rewrite H5 in L. cbn in L. lia.
  - pose proof (vh_buf _ _ _ _ _ _ _ H) as Eb. pose proof (vh_le _ _ _ _ _ _ _ H) as Le. rewrite map_length in Le.
    rewrite Eb in C |- *. cbn in C. cbn. split; [reflexivity|]. exists k. repeat split. lia.
Qed.

Local Notation mstep := (mstep keqb hash movedK movedV sizeN sizeI W).
Local Notation sstep := (sstep keqb hash).

Lemma put_stays w s b m g h' m' u' : wrel w s -> look (mw_maps w) b = Some m -> look (s_regs s) b = Some g -> agree m g ->
  stays sizeN sizeI W (mw_heap w) m (h', m') u' ->
  wrel (MWorld h' (Mem.set_nth (mw_maps w) b (Some m')) (mw_ptrs w))
       (SWorld (UMap.set_nth (s_regs s) b (Some (with_map g u'))) (s_ptrs s) (s_next s)).
Proof.
  intros R Em Eg (_ & O & C) (R' & EB & EN & P & Cap & Len). rewrite set_nth_same_fun.
  apply (wrel_put w s b m g h' m' (with_map g u') [] (s_next s)); try assumption.
  - cbn. rewrite <- O. unfold owner_of. now rewrite P.
  - cbn. congruence.
  - rewrite Len. apply (w_next _ _ R).
  - lia.
  - left. now split.
  - intros id i [].
Qed.

Lemma step_ok w s o : wrel w s -> roomy sizeN W s -> out_rel wrel (mstep w o) (sstep s o).
Proof.
  intros R F. destruct o as [|b k v|b k|b k|b|b|b c|b]; cbn [MapMem.mstep MapMemSpec.sstep].
  - (* new *)
    destruct (make_ok hash sizeN sizeI W sizeI_pos sizeN_big (mw_heap w) sizeN_fits)
      as (h' & m' & E & Rm & EB & EN & Ow & Cap & Len).
    match goal with |- out_rel _ (bind ?x _) _ => replace x with (Done (h', m')) by (symmetry; exact E) end.
    cbn [bind fst snd]. constructor.
    constructor; cbn [mw_heap mw_maps mw_ptrs s_regs s_ptrs s_next].
    + eapply owns_ext; [|intros i; symmetry; apply look_app|intros i; symmetry; apply look_app].
      rewrite (w_len _ _ R). eapply owns_step; [exact (w_own _ _ R)| | |exact Rm].
      * rewrite look_past by (rewrite (w_len _ _ R); lia). exact EB.
      * rewrite look_past by (rewrite (w_len _ _ R); lia). cbn. rewrite Ow. exact EN.
    + rewrite !app_length, (w_len _ _ R). reflexivity.
    + intros b n g. rewrite !look_app, (w_len _ _ R). unfold oput. destruct (b =? length (s_regs s)).
      * intros [= <-] [= <-]. split; [apply (rp_ok _ _ _ _ _ _ Rm)|now split].
      * apply (w_reg _ _ R).
    + rewrite Len. apply (w_next _ _ R).
    + apply (w_ptrs _ _ R).
    + apply (w_old _ _ R).
    + intros id i b g H. rewrite look_app. unfold oput. destruct (b =? length (s_regs s)).
      * intros [= <-]. discriminate.
      * apply (w_place _ _ R _ _ _ _ H).
  - (* add *)
    destruct (var_ok w s b R) as [(m & g & -> & -> & Em & Eg & Rm & A)|(-> & ->)]; [|constructor]. cbn [bind].
    pose proof (F b g (proj1 (look_nth _ _ _) Eg)) as Fg. unfold size in Fg.
    pose proof (insert_ok keqb hash movedK movedV sizeN sizeI W sizeI_pos sizeN_big (mw_heap w) m (g_map g) k v Rm Fg) as H.
    destruct (findNodeIndex keqb hash (g_map g) k) as [o|f]; cbn [bind].
    2: { destruct H as (-> & _). constructor. }
    revert H. destruct (insert_or_assign _ _ _ _ _ _ _ _ _ _ _) as [[[h' m'] it]|], (insertOrAssign _ _ _ _ _) as [u'|];
      intros H; inversion H as [? ? I1|]; subst; [|constructor]. clear H. cbn [bind].
    destruct I1 as (R' & EB & EN & -> & I2). destruct A as (Ak & O & C).
    rewrite set_nth_same_fun. unfold size.
    destruct o as [j|].
    + destruct I2 as (-> & L & Len). constructor.
      destruct (ptr_place m g _ j Rm (conj Ak (conj O C)) L) as (-> & id & Pl & Sh & Lj).
      apply (wrel_put w s b m g h' m (with_map g u') [place g j] (s_next s)); try assumption.
      * rewrite Len. apply (w_next _ _ R).
      * lia.
      * left. now split.
      * intros id' i' [H|[]]. cbn. rewrite Pl in H. injection H as -> ->. now split.
    + rewrite C in I2. destruct (length (nodes (g_map g)) <? g_length g) eqn:El.
      * destruct I2 as (P & Cap & Len). constructor. apply Nat.ltb_lt in El.
        assert (Pl : ptr m' (length (nodes (g_map g))) = penc (place g (length (nodes (g_map g)))) /\
                     exists id, place g (length (nodes (g_map g))) = Some (id, length (nodes (g_map g))) /\ g_shelf g = Some id).
        { unfold ptr, place. rewrite P, <- O. unfold owner_of.
          pose proof (rp_n _ _ _ _ _ _ Rm) as Rn. destruct Rn as [_ H2 _ _ _|k0 cap Hh].
          - lia.
          - rewrite (vh_buf _ _ _ _ _ _ _ Hh). cbn. split; [reflexivity|]. exists k0. now split. }
        destruct Pl as (-> & id & Pl & Sh).
        apply (wrel_put w s b m g h' m' (with_map g u') [place g (length (nodes (g_map g)))] (s_next s)); try assumption.
        -- cbn. rewrite <- O. unfold owner_of. now rewrite P.
        -- rewrite Len. apply (w_next _ _ R).
        -- lia.
        -- left. now split.
        -- intros id' i' [H|[]]. cbn. rewrite Pl in H. injection H as -> <-. now split.
      * destruct I2 as (P & Cap & Len). constructor. rewrite (w_next _ _ R) in P, Len.
        unfold ptr. rewrite P. cbn [advance Nat.add].
        apply (wrel_put w s b m g h' m' (Registry u' (Some (s_next s)) (longer (length (nodes (g_map g)))))
                 [Some (s_next s, length (nodes (g_map g)))] (S (s_next s))); try assumption.
        -- cbn. unfold owner_of. now rewrite P.
        -- lia.
        -- now right.
        -- intros id' i' [H|[]]. cbn [g_shelf g_length]. injection H as <- <-. split; [reflexivity|].
           apply Nat.le_max_l.
  - (* get *)
    destruct (var_ok w s b R) as [(m & g & -> & -> & Em & Eg & Rm & A)|(-> & ->)]; [|constructor]. cbn [bind].
    eapply out_bind; [apply (find_ok keqb hash sizeN sizeI W sizeI_pos sizeN_big), Rm|].
    intros p o (-> & E & L). rewrite E. constructor.
    destruct A as (Ak & O & C).
    assert (Pl : exists q, (match o with Some i => place g i | None => None end) = q /\
                 (if match o with Some _ => false | None => true end then Null
                  else match o with Some i => ptr m i | None => end_ m end) = penc q /\
                 forall id i, q = Some (id, i) -> g_shelf g = Some id /\ i < g_length g).
    { destruct o as [j|].
      - destruct (ptr_place m g _ j Rm (conj Ak (conj O C)) L) as (E1 & id & E2 & E3 & E4).
        exists (place g j). repeat split; [exact E1|..]; rewrite E2 in H; injection H as <- <-; assumption.
      - exists None. repeat split; discriminate. }
    destruct Pl as (q & E1 & E2 & Q).
    assert (X : wrel (MWorld (mw_heap w) (mw_maps w) (map penc [q] ++ mw_ptrs w)) (SWorld (s_regs s) ([q] ++ s_ptrs s) (s_next s))).
    2: { cbn [map app] in X. rewrite <- E2, <- E1 in X. exact X. }
    clear E1 E2.
    rewrite <- (uset_id (mw_maps w) b (Some m)) by now apply look_nth.
    rewrite <- (uset_id (s_regs s) b (Some g)) by now apply look_nth.
    apply (wrel_put w s b m g (mw_heap w) m g [q] (s_next s)); try assumption.
    + apply evolves_refl.
    + apply evolves_refl.
    + apply (w_next _ _ R).
    + lia.
    + left. now split.
    + intros id i [H|[]]. now apply Q.
  - (* remove *)
    destruct (var_ok w s b R) as [(m & g & -> & -> & Em & Eg & Rm & A)|(-> & ->)]; [|constructor]. cbn [bind].
    eapply out_bind; [apply (erase_ok keqb hash movedK movedV sizeN sizeI W sizeI_pos sizeN_big), Rm|].
    intros [h' m'] u' St. cbn [fst snd]. constructor. eapply put_stays; eassumption.
  - (* clear *)
    destruct (var_ok w s b R) as [(m & g & -> & -> & Em & Eg & Rm & A)|(-> & ->)]; [|constructor]. cbn [bind].
    destruct (clear_map_ok sizeN sizeI W sizeI_pos sizeN_big _ _ _ Rm) as ([h' m'] & -> & St). cbn [bind fst snd].
    constructor. eapply put_stays; eassumption.
  - (* move construction *)
    destruct (var_ok w s b R) as [(m & g & -> & -> & Em & Eg & Rm & A)|(-> & ->)]; [|constructor]. cbn [bind].
    unfold move_from, buffer_move_ctor. constructor. rewrite set_nth_same_fun.
    pose proof (look_lt _ _ _ Em) as Lm. pose proof (look_lt _ _ _ Eg) as Lg.
    assert (X1 : forall i, look (UMap.set_nth (mw_maps w) b (Some moved_map) ++ [Some m]) i =
                 oput (oput (look (mw_maps w)) b (Some moved_map)) (length (s_regs s)) (Some m) i).
    { intros i. rewrite look_app, uset_length, (w_len _ _ R). unfold oput at 1 2. destruct (i =? _); [reflexivity|].
      now apply look_set. }
    assert (X2 : forall i, look (UMap.set_nth (s_regs s) b (Some void_registry) ++ [Some g]) i =
                 oput (oput (look (s_regs s)) b (Some void_registry)) (length (s_regs s)) (Some g) i).
    { intros i. rewrite look_app, uset_length. unfold oput at 1 2. destruct (i =? _); [reflexivity|].
      now apply look_set. }
    constructor; cbn [mw_heap mw_maps mw_ptrs s_regs s_ptrs s_next].
    + eapply owns_ext; [|intros i; symmetry; destruct m; apply X1|intros i; symmetry; apply X2].
      destruct m. eapply owns_move; [exact (w_own _ _ R)|now apply look_past|exact Em|exact Eg].
    + rewrite !app_length, !uset_length, (w_len _ _ R). reflexivity.
    + intros c n k. replace (MMap (mm_buckets m) (mm_nodes m)) with m by now destruct m. fold moved_map.
      rewrite X1, X2. unfold oput. destruct (c =? _).
      * intros [= <-] [= <-]. exact A.
      * destruct (c =? b).
        -- intros [= <-] [= <-]. split; [split; constructor|now split].
        -- apply (w_reg _ _ R).
    + apply (w_next _ _ R).
    + apply (w_ptrs _ _ R).
    + apply (w_old _ _ R).
    + intros id i c k H. rewrite X2. unfold oput. destruct (c =? _).
      * intros [= <-]. apply (w_place _ _ R _ _ _ _ H Eg).
      * destruct (c =? b); [intros [= <-]; discriminate|]. apply (w_place _ _ R _ _ _ _ H).
  - (* move assignment *)
    destruct (var_ok w s b R) as [(m & g & -> & -> & Em & Eg & Rm & A)|(-> & ->)]; [|constructor]. cbn [bind].
    destruct (var_ok w s c R) as [(n & g' & -> & -> & En & Eg' & Rn & A')|(-> & ->)]; [|constructor]. cbn [bind].
    destruct (b =? c) eqn:Ebc; [constructor|]. cbn [bind]. apply Nat.eqb_neq in Ebc.
    unfold move_assign, buffer_assign_move. constructor. rewrite !set_nth_same_fun.
    replace (MMap (mm_buckets n) (mm_nodes n)) with n by now destruct n.
    replace (MMap (mm_buckets m) (mm_nodes m)) with m by now destruct m.
    pose proof (look_lt _ _ _ Em) as Lm. pose proof (look_lt _ _ _ Eg) as Lg.
    pose proof (look_lt _ _ _ En) as Ln. pose proof (look_lt _ _ _ Eg') as Lg'.
    assert (X1 : forall i, look (UMap.set_nth (UMap.set_nth (mw_maps w) b (Some n)) c (Some m)) i =
                 oput (oput (look (mw_maps w)) b (Some n)) c (Some m) i).
    { intros i. rewrite look_set by now rewrite uset_length. unfold oput at 1 2. destruct (i =? c); [reflexivity|].
      now apply look_set. }
    assert (X2 : forall i, look (UMap.set_nth (UMap.set_nth (s_regs s) b (Some g')) c (Some g)) i =
                 oput (oput (look (s_regs s)) b (Some g')) c (Some g) i).
    { intros i. rewrite look_set by now rewrite uset_length. unfold oput at 1 2. destruct (i =? c); [reflexivity|].
      now apply look_set. }
    constructor; cbn [mw_heap mw_maps mw_ptrs s_regs s_ptrs s_next].
    + eapply owns_ext; [|intros i; symmetry; apply X1|intros i; symmetry; apply X2].
      eapply owns_swap; [exact (w_own _ _ R)|exact En|exact Em|exact Eg'|exact Eg].
    + rewrite !uset_length. apply (w_len _ _ R).
    + intros d x y. rewrite X1, X2. unfold oput. destruct (d =? c); [|destruct (d =? b)].
      * intros [= <-] [= <-]. exact A.
      * intros [= <-] [= <-]. exact A'.
      * apply (w_reg _ _ R).
    + apply (w_next _ _ R).
    + apply (w_ptrs _ _ R).
    + apply (w_old _ _ R).
    + intros id i d k H. rewrite X2. unfold oput. destruct (d =? c); [|destruct (d =? b)].
      * intros [= <-]. apply (w_place _ _ R _ _ _ _ H Eg).
      * intros [= <-]. apply (w_place _ _ R _ _ _ _ H Eg').
      * apply (w_place _ _ R _ _ _ _ H).
  - (* destruction *)
    destruct (var_ok w s b R) as [(m & g & -> & -> & Em & Eg & Rm & A)|(-> & ->)]; [|constructor]. cbn [bind].
    destruct (destroy_map_ok sizeN sizeI W sizeI_pos sizeN_big _ _ _ Rm) as (h' & -> & EB & EN & Len). cbn [bind].
    constructor. rewrite set_nth_same_fun.
    pose proof (look_lt _ _ _ Em) as Lm. pose proof (look_lt _ _ _ Eg) as Lg.
    constructor; cbn [mw_heap mw_maps mw_ptrs s_regs s_ptrs s_next].
    + eapply owns_ext; [|intros i; symmetry; now apply look_set|intros i; symmetry; now apply look_set].
      eapply owns_step; [exact (w_own _ _ R)|rewrite Em; exact EB|rewrite Em; exact EN|exact I].
    + rewrite !uset_length. apply (w_len _ _ R).
    + intros c n k. rewrite !look_set by assumption. unfold oput. destruct (c =? b); [discriminate|apply (w_reg _ _ R)].
    + rewrite Len. apply (w_next _ _ R).
    + apply (w_ptrs _ _ R).
    + apply (w_old _ _ R).
    + intros id i c k H. rewrite look_set by assumption. unfold oput. destruct (c =? b); [discriminate|].
      apply (w_place _ _ R _ _ _ _ H).
Qed.

Lemma runs_ok os : forall w s, wrel w s -> always_roomy keqb hash sizeN W s os ->
  out_rel wrel (mruns keqb hash movedK movedV sizeN sizeI W w os) (sruns keqb hash s os).
Proof.
  induction os as [|o os IH]; intros w s R F; cbn [mruns sruns].
  - now constructor.
  - destruct F as (F & F'). pose proof (step_ok w s o R F) as H. revert H.
    destruct (mstep w o) as [w'|], (sstep s o) as [s'|] eqn:E; intros H; inversion H; subst; cbn [bind]; [|constructor].
    apply IH; [assumption|]. now apply F'.
Qed.

(** ** Reading *)

Lemma find_look (p : option (@registry K V) -> bool) (l : list (option (@registry K V))) :
  (forall x, p x = true -> x <> None) ->
  match List.find p l with
  | Some (Some g) => exists b, look l b = Some g /\ p (Some g) = true
  | Some None => False
  | None => forall b g, look l b = Some g -> p (Some g) = false
  end.
Proof.
  intros Hp. induction l as [|x l IH]; cbn.
  - intros b g H. destruct b; discriminate.
  - destruct (p x) eqn:E.
    + destruct x as [g|]; [|now apply (Hp None)]. exists 0. now split.
    + destruct (List.find p l) as [[g|]|].
      * destruct IH as (b & H). now exists (S b).
      * exact IH.
      * intros [|b] g H; [|now apply (IH b)]. cbn in H. destruct x; [|discriminate]. now injection H as <-.
Qed.

Lemma read_ok w s r : wrel w s -> mread w r = sread s r.
Proof.
  intros R. unfold mread, sread. rewrite (w_ptrs _ _ R), nth_error_map.
  destruct (nth_error (s_ptrs s) r) as [[[id i]|]|] eqn:E; cbn [option_map penc]; try reflexivity.
  apply nth_error_In in E. unfold deref, load_value, load, find_block.
  pose proof (find_look (has_shelf id) (s_regs s)) as Hf.
  assert (H0 : forall x : option (@registry K V), has_shelf id x = true -> x <> None) by (intros [|]; cbn; congruence).
  specialize (Hf H0). clear H0. destruct (List.find (has_shelf id) (s_regs s)) as [[g|]|].
  - destruct Hf as (b & Eg & Hs). cbn in Hs. destruct (g_shelf g) as [id'|] eqn:Es; [|discriminate].
    apply Nat.eqb_eq in Hs. subst id'.
    destruct (wrel_rep _ _ _ _ R Eg) as (m & Em & Rm & _ & O & C). rewrite Es in O.
    pose proof (w_place _ _ R _ _ _ _ E Eg Es) as L. rewrite <- C in L.
    pose proof (rp_n _ _ _ _ _ _ Rm) as Rn. destruct Rn as [H1 _ _ _ _|k cap H].
    { unfold owner_of in O. rewrite H1 in O. discriminate. }
    pose proof (vh_buf _ _ _ _ _ _ _ H) as Eb. rewrite Eb in O, L. cbn in O, L. injection O as <-.
    pose proof (vh_live _ _ _ _ _ _ _ H) as Hl. unfold live in Hl. rewrite Hl. cbn [bind].
    rewrite Nat.add_0_r. unfold cells, iterate. rewrite nth_error_map.
    destruct (nth_error (nodes (g_map g)) i) as [n|] eqn:En.
    + rewrite nth_error_app1 by (rewrite !map_length; apply nth_error_Some; congruence).
      rewrite !nth_error_map, En. reflexivity.
    + apply nth_error_None in En. rewrite nth_error_app2 by (now rewrite !map_length).
      rewrite !map_length.
      destruct (nth_error (repeat (@None (mnode K V)) (cap - length (nodes (g_map g)))) (i - length (nodes (g_map g)))) as [c|] eqn:Ec.
      * apply nth_error_In, repeat_spec in Ec. subst c. reflexivity.
      * apply nth_error_None in Ec. rewrite repeat_length in Ec. lia.
  - contradiction.
  - pose proof (w_old _ _ R _ _ E) as L. rewrite <- (w_next _ _ R) in L.
    destruct (nth_error (blocks (h_nodes (mw_heap w))) id) as [[cs|]|] eqn:Eb; [|reflexivity|].
    + exfalso. destruct (ow_owner _ _ _ _ (own_n _ _ _ (w_own _ _ R)) id cs Eb) as (b & t & Et & Ot). cbn in Et.
      destruct (look (mw_maps w) b) as [m|] eqn:Em; [|discriminate]. injection Et as <-.
      destruct (look (s_regs s) b) as [g|] eqn:Eg.
      * destruct (w_reg _ _ R _ _ _ Em Eg) as (_ & O & _). specialize (Hf _ _ Eg). cbn in Hf.
        rewrite <- O, Ot, Nat.eqb_refl in Hf. discriminate.
      * pose proof (owns_none _ _ _ _ (w_own _ _ R) Eg). congruence.
    + apply nth_error_None in Eb. lia.
Qed.

(** ** Nothing is lost *)
Lemma no_leak w s : wrel w s -> (forall b, look (s_regs s) b = None) ->
  (forall k cs, ~ live (h_buckets (mw_heap w)) k cs) /\ (forall k cs, ~ live (h_nodes (mw_heap w)) k cs).
Proof.
  intros R N.
  assert (M : forall b, look (mw_maps w) b = None) by (intros b; apply (owns_none _ _ _ _ (w_own _ _ R)), N).
  split; intros k cs L.
  - destruct (ow_owner _ _ _ _ (own_b _ _ _ (w_own _ _ R)) k cs L) as (b & t & Et & _). cbn in Et. now rewrite M in Et.
  - destruct (ow_owner _ _ _ _ (own_n _ _ _ (w_own _ _ R)) k cs L) as (b & t & Et & _). cbn in Et. now rewrite M in Et.
Qed.
End MapMemWorld.
