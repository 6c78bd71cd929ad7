(** Proofs about ArgPass.v: the functor, typedCall, FunctionWrapper::invoke and
    detail::invoke. *)
From Coq Require Import Bool PeanoNat Lia List Permutation.
From Verif Require Import Base ArgPass ArgPassSpec ArgPassProofs.
Import ListNotations.

Lemma forwarded_nth : forall V ps hs i p h, nth_error ps i = Some p -> nth_error hs i = Some h ->
  nth_error (@forwarded V ps hs) i = Some (AObj (Xvalue, p_const p) h).
Proof.
  induction ps as [|q ps IH]; intros [|g hs] [|i] p h Hp Hh; cbn in *; try discriminate.
  - injection Hp as ->. injection Hh as ->. reflexivity.
  - now apply IH.
Qed.

Lemma forwarded_length : forall V ps hs, List.length ps = List.length hs ->
  List.length (@forwarded V ps hs) = List.length hs.
Proof.
  induction ps as [|q ps IH]; intros [|g hs] H; cbn in *; try lia. rewrite IH; lia.
Qed.

Lemma sum_seq_nth : forall A (f : A -> nat) (l : list A) (g : nat -> nat),
  (forall i x, nth_error l i = Some x -> g i = f x) ->
  list_sum (map g (seq 0 (List.length l))) = list_sum (map f l).
Proof.
  intros A f l. induction l as [|x l IH]; intros g H; [reflexivity|].
  cbn [List.length seq map]. rewrite <- seq_shift, map_map. unfold list_sum in *. cbn [fold_right].
  rewrite (H 0 x eq_refl). f_equal. apply (IH (fun i => g (Datatypes.S i))).
  intros i y Hy. now apply H.
Qed.

Definition bv (p : ptype) : nat := if by_value p then 1 else 0.

Lemma count_bv : forall l, list_sum (map bv l) = List.length (filter by_value l).
Proof.
  unfold list_sum, bv. induction l as [|p l IH]; [reflexivity|].
  cbn. destruct (by_value p); cbn [List.length]; rewrite IH; reflexivity.
Qed.

(** ** The parameter types a command can have *)
Lemma compiles_param_iff : forall e p, e = expected_value \/ e = (Prvalue, false) ->
  (compiles_param e p = true <-> accepted p).
Proof.
  intros e [[] []] [->| ->]; cbn; split; intro H; try discriminate; try reflexivity;
    unfold accepted in *; congruence.
Qed.

Lemma accepted_first : forall p, accepted p ->
  init_how (adjusted p) Xvalue false = Some (if by_value p then MoveInit else BindRef).
Proof. intros [[] []] H; try reflexivity. now contradiction H. Qed.
Lemma accepted_temp : forall p, accepted p -> init_how (adjusted p) Prvalue false = Some InPlace.
Proof. intros [[] []] H; try reflexivity. now contradiction H. Qed.
Lemma accepted_again : forall p, accepted p ->
  init_how (adjusted p) Xvalue (p_const (adjusted p)) = Some (if by_value p then MoveInit else BindRef).
Proof. intros [[] []] H; try reflexivity. now contradiction H. Qed.
Lemma accepted_func : forall p, accepted p ->
  init_how p Xvalue (p_const (adjusted p)) = Some (if by_value p then MoveInit else BindRef).
Proof. intros [[] []] H; try reflexivity. now contradiction H. Qed.

Section Calls.
Context {V E S : Type}.
Variable moved torn : V -> V.
Variable show : V -> S.
Variable raises : list (event V) -> bool.
Variable order : nat -> nat -> list nat.
Variable dorder : nat -> list nat -> list nat.
Hypothesis Horder : any_order order.
Hypothesis Hdorder : any_dorder dorder.
Variable func : list V -> list V * @ending V.
Variable sig : list ptype.
Hypothesis Hsane : sane_functor func sig.
Hypothesis Hsig : Forall accepted sig.

Let wargs := wrapper_args sig.

Lemma wargs_nth : forall i p, nth_error sig i = Some p -> nth_error wargs i = Some (adjusted p).
Proof. intros i p H. unfold wargs, wrapper_args. now apply map_nth_error. Qed.
Lemma wargs_nth_inv : forall i q, nth_error wargs i = Some q ->
  exists p, nth_error sig i = Some p /\ q = adjusted p.
Proof.
  intros i q H. unfold wargs, wrapper_args in H. rewrite nth_error_map in H.
  destruct (nth_error sig i) as [p|]; [|discriminate]. injection H as <-. eauto.
Qed.
Lemma wargs_length : List.length wargs = List.length sig.
Proof. apply map_length. Qed.
Lemma sig_accepted : forall i p, nth_error sig i = Some p -> accepted p.
Proof. intros i p H. apply nth_error_In in H. rewrite Forall_forall in Hsig. auto. Qed.

(** ** The functor *)
Lemma get_all_ok : forall hs (st : state V) vs, List.length vs = List.length hs ->
  (forall i o v, nth_error hs i = Some o -> nth_error vs i = Some v ->
     nth_error (objs st) o = Some (Some v)) ->
  get_all st hs = Done vs.
Proof.
  induction hs as [|h hs IH]; intros st [|v vs] HL H; cbn in HL; try lia; [reflexivity|].
  cbn [get_all]. unfold get. rewrite (H 0 h v eq_refl eq_refl). cbn [bind].
  rewrite (IH st vs); [reflexivity|lia|]. intros i o w Ho Hw. now apply (H (Datatypes.S i)).
Qed.

Lemma write_back_ok : forall ps hs vs (st : state V), List.length ps = List.length hs ->
  List.length vs = List.length hs -> NoDup hs -> (forall h, In h hs -> alive (objs st) h) ->
  exists st', write_back st ps hs vs = Done st' /\ log st' = log st /\
    List.length (objs st') = List.length (objs st) /\
    (forall o, alive (objs st) o -> alive (objs st') o) /\
    (forall o, alive (objs st') o -> alive (objs st) o) /\
    (forall o, ~ In o hs -> nth_error (objs st') o = nth_error (objs st) o) /\
    (forall i p h v, nth_error ps i = Some p -> nth_error hs i = Some h -> nth_error vs i = Some v ->
       nth_error (objs st') h = if p_const p then nth_error (objs st) h else Some (Some v)).
Proof.
  induction ps as [|p ps IH]; intros [|h hs] [|v vs] st HLp HLv Hnd Hal; cbn in HLp, HLv; try lia.
  - exists st. cbn. repeat split; auto. intros [|i] p h v H; discriminate.
  - inversion Hnd as [|? ? Hni Hnd']; subst. cbn [write_back]. unfold writable.
    destruct (p_const p) eqn:Hc; cbn [negb].
    + destruct (IH hs vs st ltac:(lia) ltac:(lia) Hnd') as (st' & E1 & L & N & A1 & A2 & K & W).
      { intros x Hx. apply Hal. now right. }
      exists st'. repeat split; try assumption.
      * intros o Ho. apply K. intro Hi. apply Ho. now right.
      * intros [|i] q g w Hq Hg Hw; [|now apply (W i q g w)].
        cbn in Hq, Hg. injection Hq as <-. injection Hg as <-. rewrite Hc. now apply K.
    + unfold put. destruct (Hal h (or_introl eq_refl)) as [u Hu]. rewrite Hu. cbn [bind].
      assert (Hb := nth_error_bound _ _ _ _ Hu).
      destruct (IH hs vs (St (set_nth (objs st) h (Some v)) (log st)) ltac:(lia) ltac:(lia) Hnd')
        as (st' & E1 & L & N & A1 & A2 & K & W).
      { intros x Hx. destruct (Hal x (or_intror Hx)) as [w Hw]. exists w. cbn [objs].
        rewrite set_nth_neq; [assumption|]. intros ->. contradiction. }
      cbn [objs log] in *. exists st'. split; [assumption|]. split; [assumption|].
      split; [now rewrite N, set_nth_length|]. split; [|split; [|split]].
      * intros o [w Hw]. apply A1. destruct (Nat.eq_dec h o) as [<-|Hne].
        -- eexists. now apply set_nth_eq.
        -- exists w. now rewrite set_nth_neq.
      * intros o Ho. apply A2 in Ho. destruct Ho as [w Hw]. destruct (Nat.eq_dec h o) as [<-|Hne].
        -- eexists. exact Hu.
        -- exists w. now rewrite set_nth_neq in Hw.
      * intros o Ho. rewrite K by (intro Hi; apply Ho; now right). apply set_nth_neq.
        intros ->. apply Ho. now left.
      * intros [|i] q g w Hq Hg Hw.
        -- cbn in Hq, Hg, Hw. injection Hq as <-. injection Hg as <-. injection Hw as <-. rewrite Hc.
           rewrite K by assumption. now apply set_nth_eq.
        -- cbn in Hq, Hg, Hw. rewrite (W i q g w Hq Hg Hw). destruct (p_const q); [|reflexivity].
           apply set_nth_neq. intros ->. apply Hni. eapply nth_error_In; eassumption.
Qed.

Lemma nodup_of_inj : forall (hs : list nat),
  (forall i j o, nth_error hs i = Some o -> nth_error hs j = Some o -> i = j) -> NoDup hs.
Proof.
  intros hs H. apply NoDup_nth_error. intros i j Hi Hij.
  destruct (nth_error hs i) as [o|] eqn:Ho; [|apply nth_error_None in Ho; lia].
  apply (H i j o); congruence.
Qed.

Definition reason (vs : list V) : Prop := (exists l, raises l = true) \/ snd (func vs) = FThrows.

Lemma run_func_ok : forall (st : state V) hs vs, List.length vs = List.length sig ->
  List.length hs = List.length sig ->
  (forall i o v, nth_error hs i = Some o -> nth_error vs i = Some v ->
     nth_error (objs st) o = Some (Some v)) ->
  (forall i j o, nth_error hs i = Some o -> nth_error hs j = Some o -> i = j) ->
  exists st', run_func func sig st hs =
      Done (st', match snd (func vs) with
                 | RetVoid => Ok RVoid
                 | RetValue v => Ok (RVal v)
                 | RetRef i => Ok (RObj (nth i hs 0))
                 | FThrows => Thrown
                 end) /\
    rel (fun o => In o hs) (objs st) (objs st') /\
    List.length (objs st') = List.length (objs st) /\
    (forall i p h v w, nth_error sig i = Some p -> nth_error hs i = Some h ->
       nth_error vs i = Some v -> nth_error (fst (func vs)) i = Some w ->
       nth_error (objs st') h = Some (Some (if p_const p then v else w))) /\
    copies (log st') = copies (log st) /\ moves (log st') = moves (log st) /\
    calls (log st') = vs :: calls (log st).
Proof.
  intros st hs vs HLv HLh Hval Hinj. unfold run_func.
  rewrite (get_all_ok hs st vs) by (assumption || lia). cbn [bind].
  destruct (Hsane vs HLv) as [HLf _]. destruct (func vs) as [vs' r]. cbn [fst snd] in *.
  assert (Hal : forall h, In h hs -> alive (objs st) h).
  { intros h Hh. apply In_nth_error in Hh. destruct Hh as [i Hi].
    assert (B := nth_error_bound _ _ _ _ Hi).
    destruct (nth_error vs i) as [v|] eqn:Hv; [|apply nth_error_None in Hv; lia].
    exists v. now apply (Hval i). }
  destruct (write_back_ok sig hs vs' (note (ECall vs) st)) as (st' & E1 & L & N & A1 & A2 & K & W);
    [lia|lia|now apply nodup_of_inj|exact Hal|].
  rewrite E1. cbn [bind]. exists st'. cbn [note objs log] in *.
  split; [reflexivity|]. split; [|split; [assumption|split]].
  - split; [lia|]. intros o Ho. split; [split; auto|]. apply K.
  - intros i p h v w Hp Hh Hv Hw. rewrite (W i p h w Hp Hh Hw).
    destruct (p_const p); [|reflexivity]. now apply (Hval i).
  - rewrite L. repeat split.
Qed.

(** ** typedCall *)
(** How a call ends, for the log and the answer; [M] is the number of moves. *)
Definition ends (vs : list V) (M : nat) (l l' : list (event V)) (r : result (option S)) : Prop :=
  copies l' = copies l /\
  match r with
  | Ok s => calls l' = vs :: calls l /\ moves l' = M + moves l /\
            answer_text show sig vs (fst (func vs)) (snd (func vs)) = Some s
  | Thrown => (calls l' = calls l \/ calls l' = vs :: calls l) /\ reason vs
  end.

Lemma ends_quiet : forall vs M a b c d m r, quiet a b m -> ends vs M b c r -> quiet c d 0 ->
  ends vs (m + M) a d r.
Proof.
  unfold ends, quiet. intros vs M a b c d m r (A1 & A2 & A3) [B1 B2] (C1 & C2 & C3).
  split; [congruence|]. destruct r as [s|].
  - destruct B2 as (D1 & D2 & D3). repeat split; congruence || lia || assumption.
  - destruct B2 as ([D|D] & R); (split; [|assumption]); [left|right]; congruence.
Qed.

Lemma ends_thrown : forall vs M a b m, quiet a b m -> (exists l, raises l = true) -> ends vs M a b Thrown.
Proof.
  unfold ends, quiet, reason. intros vs M a b m (A1 & A2 & A3) H. split; [assumption|].
  split; [now left|now left].
Qed.

Lemma show_value_ends : forall vs (st : state V) v M l0, 
  copies (log st) = copies l0 -> calls (log st) = vs :: calls l0 -> moves (log st) = M + moves l0 ->
  answer_text show sig vs (fst (func vs)) (snd (func vs)) = Some (Some (show v)) ->
  objs (fst (show_value show raises st v)) = objs st /\
  ends vs M l0 (log (fst (show_value show raises st v))) (snd (show_value show raises st v)).
Proof.
  intros vs st v M l0 H1 H2 H3 H4. unfold show_value. cbn [note log objs].
  destruct (raises (EShow :: log st)) eqn:Hr; cbn [fst snd objs log]; (split; [reflexivity|]);
    unfold ends; cbn [copies calls moves].
  - split; [assumption|]. split; [now right|]. left. eauto.
  - repeat split; assumption.
Qed.

Section Level.
Variable vs : list V.
Hypothesis Hvs : List.length vs = List.length sig.

(** Handles of parameters with the values [vs]. *)
Definition hold (st : state V) (hs : list nat) : Prop :=
  List.length hs = List.length sig /\
  (forall i o v, nth_error hs i = Some o -> nth_error vs i = Some v ->
     nth_error (objs st) o = Some (Some v)) /\
  (forall i j o, nth_error hs i = Some o -> nth_error hs j = Some o -> i = j).

Lemma forwarded_inv : forall hs i a, List.length hs = List.length sig ->
  nth_error (@forwarded V wargs hs) i = Some a ->
  exists p h, nth_error sig i = Some p /\ nth_error hs i = Some h /\
              a = AObj (Xvalue, p_const (adjusted p)) h.
Proof.
  intros hs i a HL Ha. assert (B := nth_error_bound _ _ _ _ Ha).
  rewrite forwarded_length in B by (rewrite wargs_length; lia).
  destruct (nth_error hs i) as [h|] eqn:Hh; [|apply nth_error_None in Hh; lia].
  destruct (nth_error sig i) as [p|] eqn:Hp; [|apply nth_error_None in Hp; lia].
  rewrite (forwarded_nth V wargs hs i (adjusted p) h (wargs_nth i p Hp) Hh) in Ha.
  exists p, h. repeat split; congruence.
Qed.

Lemma forwarded_objs : forall hs o, List.length hs = List.length sig ->
  arg_objs (@forwarded V wargs hs) o -> In o hs.
Proof.
  intros hs o HL (i & a & Ha & Ho). destruct (forwarded_inv hs i a HL Ha) as (p & h & Hp & Hh & ->).
  cbn in Ho. injection Ho as <-. eapply nth_error_In; eassumption.
Qed.

(** The arguments of typedCall and of the functor are in order. *)
Lemma forwarded_args : forall (st : state V) hs ps,
  hold st hs ->
  (forall i p, nth_error sig i = Some p ->
     exists q, nth_error ps i = Some q /\
       init_how q Xvalue (p_const (adjusted p)) = Some (if by_value p then MoveInit else BindRef)) ->
  List.length ps = List.length sig ->
  (forall i q a v, nth_error ps i = Some q -> nth_error (forwarded wargs hs) i = Some a ->
     nth_error vs i = Some v -> arg_ok (objs st) q a v) /\
  (forall i j a b o, nth_error (@forwarded V wargs hs) i = Some a ->
     nth_error (@forwarded V wargs hs) j = Some b ->
     arg_obj a = Some o -> arg_obj b = Some o -> i = j) /\
  list_sum (map (mv_at ps (@forwarded V wargs hs)) (seq 0 (List.length (@forwarded V wargs hs))))
    = list_sum (map bv sig).
Proof.
  intros st hs ps (HL & Hval & Hinj) Hhow HLp. split; [|split].
  - intros i q a v Hq Ha Hv. destruct (forwarded_inv hs i a HL Ha) as (p & h & Hp & Hh & ->).
    destruct (Hhow i p Hp) as (q' & Hq' & Hi). rewrite Hq in Hq'. injection Hq' as <-.
    cbn [arg_ok]. split; [now apply (Hval i)|]. rewrite Hi. destruct (by_value p); auto.
  - intros i j a b o Ha Hb Hao Hbo.
    destruct (forwarded_inv hs i a HL Ha) as (p & h & Hp & Hh & ->).
    destruct (forwarded_inv hs j b HL Hb) as (p' & h' & Hp' & Hh' & ->).
    cbn in Hao, Hbo. injection Hao as <-. injection Hbo as ->. now apply (Hinj i j h).
  - rewrite forwarded_length by (rewrite wargs_length; lia). rewrite HL.
    apply sum_seq_nth. intros i p Hp. destruct (Hhow i p Hp) as (q & Hq & Hi).
    assert (B := nth_error_bound _ _ _ _ Hp).
    destruct (nth_error hs i) as [h|] eqn:Hh; [|apply nth_error_None in Hh; lia].
    unfold mv_at. rewrite Hq, (forwarded_nth V wargs hs i (adjusted p) h (wargs_nth i p Hp) Hh).
    cbn [mv]. rewrite Hi. unfold bv. destruct (by_value p); reflexivity.
Qed.

(** The body of typedCall: the functor is called and its result shown. *)
Definition typed_body (st : state V) (hs : list nat) : outcome (state V * result (option S)) :=
  r <- pass moved torn raises order dorder 3 sig (forwarded wargs hs) (run_func func sig) st ;;
  let '(st, x) := r in
  match x with
  | Thrown => Done (st, Thrown)
  | Ok RVoid => Done (st, Ok None)
  | Ok (RVal v) => Done (show_value show raises st v)
  | Ok (RObj o) => v <- get st o ;; Done (show_value show raises st v)
  end.

Lemma typed_body_ok : forall (st : state V) hs, hold st hs ->
  exists st' r, typed_body st hs = Done (st', r) /\
    rel (fun o => In o hs) (objs st) (objs st') /\ dead_above (List.length (objs st)) (objs st') /\
    ends vs (list_sum (map bv sig)) (log st) (log st') r.
Proof.
  intros st hs Hh. destruct Hh as (HL & Hval & Hinj).
  assert (HFL : List.length (@forwarded V wargs hs) = List.length sig)
    by (rewrite forwarded_length; rewrite ?wargs_length; lia).
  destruct (forwarded_args st hs sig (conj HL (conj Hval Hinj))) as (Hargs & Hdist & Hsum).
  { intros i p Hp. exists p. split; [assumption|]. apply accepted_func. eapply sig_accepted; eassumption. }
  { reflexivity. }
  destruct (pass_ok moved torn raises sig (forwarded wargs hs) vs st
              ltac:(congruence) ltac:(congruence) Hargs Hdist order dorder Horder Hdorder
              _ 3 (run_func func sig)) as (st2 & r & E1 & R & D & C).
  { intros st1 hs3 He.
    destruct (run_func_ok st1 hs3 vs Hvs) as (st2 & E2 & R2 & L2 & _).
    - rewrite (e_hs _ _ _ _ _ _ He). assumption.
    - exact (e_val _ _ _ _ _ _ He).
    - exact (e_inj _ _ _ _ _ _ He).
    - eexists _, _. split; [exact E2|]. split; [assumption|]. intros o Ho. lia. }
  assert (R' : rel (fun o => In o hs) (objs st) (objs st2)).
  { destruct R as [RL RR]. split; [assumption|]. intros o Ho. destruct (RR o Ho) as [A B].
    split; [assumption|]. intros Hn. apply B. intro H. apply Hn. now apply forwarded_objs in H. }
  unfold typed_body. rewrite E1. cbn [bind]. destruct C as [(-> & Hr & m & Hq)|C].
  - exists st2, Thrown. split; [reflexivity|]. split; [assumption|]. split; [assumption|].
    eapply ends_thrown; eassumption.
  - destruct C as (st1 & hs3 & stk & He & Ek & Hbelow & Hq).
    assert (HL3 : List.length hs3 = List.length sig) by (rewrite (e_hs _ _ _ _ _ _ He); assumption).
    destruct (run_func_ok st1 hs3 vs Hvs HL3 (e_val _ _ _ _ _ _ He) (e_inj _ _ _ _ _ _ He))
      as (stk' & Ek' & _ & _ & Hafter & Lc & Lm & Lk).
    rewrite Ek' in Ek. injection Ek as <- <-.
    assert (Hlog := e_log _ _ _ _ _ _ He). rewrite Hsum in Hlog.
    assert (G1 : copies (log st2) = copies (log st)) by (unfold quiet in *; intuition congruence).
    assert (G2 : calls (log st2) = vs :: calls (log st)) by (unfold quiet in *; intuition congruence).
    assert (G3 : moves (log st2) = list_sum (map bv sig) + moves (log st))
      by (unfold quiet in *; lia).
    destruct (snd (func vs)) as [| v | i |] eqn:Hend.
    + exists st2, (Ok None). split; [reflexivity|]. split; [assumption|]. split; [assumption|].
      unfold ends. rewrite Hend. repeat split; assumption.
    + destruct (show_value_ends vs st2 v (list_sum (map bv sig)) (log st) G1 G2 G3) as [Ho He'];
        [now rewrite Hend|].
      destruct (show_value show raises st2 v) as [st3 r3]. cbn [fst snd] in *.
      exists st3, r3. split; [reflexivity|]. rewrite Ho. auto.
    + destruct (Hsane vs Hvs) as [HLf Href]. destruct (Href i Hend) as (p & Hp & Hnr).
      assert (B := nth_error_bound _ _ _ _ Hp).
      destruct (nth_error hs i) as [h|] eqn:Hhi; [|apply nth_error_None in Hhi; lia].
      destruct (nth_error hs3 i) as [h3|] eqn:Hhi3; [|apply nth_error_None in Hhi3; lia].
      destruct (nth_error vs i) as [v|] eqn:Hvi; [|apply nth_error_None in Hvi; lia].
      destruct (nth_error (fst (func vs)) i) as [w|] eqn:Hwi; [|apply nth_error_None in Hwi; lia].
      assert (Hloc := e_loc _ _ _ _ _ _ He i h3 p _ Hhi3 Hp
                        (forwarded_nth V wargs hs i (adjusted p) h (wargs_nth i p Hp) Hhi)).
      cbn [borrow] in Hloc. rewrite (accepted_func p (sig_accepted i p Hp)) in Hloc.
      assert (Hbv : by_value p = false) by (unfold by_value; destruct (p_ref p); congruence).
      rewrite Hbv in Hloc. subst h3.
      rewrite (nth_error_nth hs3 i 0 Hhi3).
      assert (Hhlen : h < List.length (objs st))
        by (eapply nth_error_bound; exact (Hval i h v Hhi Hvi)).
      assert (Hg : nth_error (objs st2) h = Some (Some (if p_const p then v else w))).
      { rewrite Hbelow by exact Hhlen. now apply (Hafter i p h v w). }
      unfold get. rewrite Hg. cbn [bind].
      destruct (show_value_ends vs st2 (if p_const p then v else w) (list_sum (map bv sig)) (log st)
                  G1 G2 G3) as [Ho He'].
      { rewrite Hend. cbn [answer_text]. now rewrite Hp, Hvi, Hwi. }
      destruct (show_value show raises st2 (if p_const p then v else w)) as [st3 r3].
      cbn [fst snd] in *. exists st3, r3. split; [reflexivity|]. rewrite Ho. auto.
    + exists st2, Thrown. split; [reflexivity|]. split; [assumption|]. split; [assumption|].
      unfold ends. split; [assumption|]. split; [now right|]. now right.
Qed.

Lemma typed_call_ok : forall (st : state V) hs, hold st hs ->
  exists st' r, typed_call moved torn show raises order dorder func sig (forwarded wargs hs) st = Done (st', r) /\
    rel (fun o => In o hs) (objs st) (objs st') /\ dead_above (List.length (objs st)) (objs st') /\
    ends vs (2 * list_sum (map bv sig)) (log st) (log st') r.
Proof.
  intros st hs Hh. destruct Hh as (HL & Hval & Hinj).
  assert (HFL : List.length (@forwarded V wargs hs) = List.length sig)
    by (rewrite forwarded_length; rewrite ?wargs_length; lia).
  destruct (forwarded_args st hs wargs (conj HL (conj Hval Hinj))) as (Hargs & Hdist & Hsum).
  { intros i p Hp. exists (adjusted p). split; [now apply wargs_nth|]. apply accepted_again.
    eapply sig_accepted; eassumption. }
  { apply wargs_length. }
  destruct (pass_ok moved torn raises wargs (forwarded wargs hs) vs st
              ltac:(rewrite wargs_length; congruence) ltac:(congruence) Hargs Hdist order dorder Horder Hdorder
              _ 2 typed_body) as (st2 & r & E1 & R & D & C).
  { intros st1 hs2 He.
    destruct (typed_body_ok st1 hs2) as (st2 & r & E2 & R2 & D2 & _).
    - split; [rewrite (e_hs _ _ _ _ _ _ He); assumption|]. split.
      + exact (e_val _ _ _ _ _ _ He).
      + exact (e_inj _ _ _ _ _ _ He).
    - eexists _, _. split; [exact E2|]. split; assumption. }
  assert (R' : rel (fun o => In o hs) (objs st) (objs st2)).
  { destruct R as [RL RR]. split; [assumption|]. intros o Ho. destruct (RR o Ho) as [A B].
    split; [assumption|]. intros Hn. apply B. intro H. apply Hn. now apply forwarded_objs in H. }
  exists st2, r. split; [exact E1|]. split; [assumption|]. split; [assumption|].
  destruct C as [(-> & Hr & m & Hq)|C].
  - eapply ends_thrown; eassumption.
  - destruct C as (st1 & hs2 & stk & He & Ek & Hbelow & Hq).
    destruct (typed_body_ok st1 hs2) as (stk' & r' & Ek' & _ & _ & Hends).
    { split; [rewrite (e_hs _ _ _ _ _ _ He); assumption|]. split.
      - exact (e_val _ _ _ _ _ _ He).
      - exact (e_inj _ _ _ _ _ _ He). }
    rewrite Ek' in Ek. injection Ek as <- <-.
    assert (Hlog := e_log _ _ _ _ _ _ He). rewrite Hsum in Hlog.
    assert (H := ends_quiet _ _ _ _ _ _ _ _ Hlog Hends Hq).
    replace (2 * list_sum (map bv sig)) with (list_sum (map bv sig) + list_sum (map bv sig)) by lia.
    exact H.
Qed.

(** ** FunctionWrapper::invoke *)
Lemma wrapper_invoke_ok : forall (st : state V) args M, List.length args = List.length sig ->
  (forall i p a v, nth_error sig i = Some p -> nth_error args i = Some a ->
     nth_error vs i = Some v -> arg_ok (objs st) (adjusted p) a v) ->
  (forall i j a b o, nth_error args i = Some a -> nth_error args j = Some b ->
     arg_obj a = Some o -> arg_obj b = Some o -> i = j) ->
  list_sum (map (mv_at wargs args) (seq 0 (List.length args))) = M ->
  exists st' r, wrapper_invoke moved torn show raises order dorder func sig args st = Done (st', r) /\
    rel (arg_objs args) (objs st) (objs st') /\ dead_above (List.length (objs st)) (objs st') /\
    ends vs (M + 2 * list_sum (map bv sig)) (log st) (log st') r.
Proof.
  intros st args M HL Hargs Hdist Hsum.
  assert (Hargs' : forall i q a v, nth_error wargs i = Some q -> nth_error args i = Some a ->
            nth_error vs i = Some v -> arg_ok (objs st) q a v).
  { intros i q a v Hq Ha Hv. apply wargs_nth_inv in Hq. destruct Hq as (p & Hp & ->). eauto. }
  destruct (pass_ok moved torn raises wargs args vs st
              ltac:(rewrite wargs_length; congruence) ltac:(congruence) Hargs' Hdist order dorder Horder Hdorder
              _ 1 (fun st hs => typed_call moved torn show raises order dorder func sig (forwarded wargs hs) st))
    as (st2 & r & E1 & R & D & C).
  { intros st1 hs2 He.
    destruct (typed_call_ok st1 hs2) as (st2 & r & E2 & R2 & D2 & _).
    - split; [rewrite (e_hs _ _ _ _ _ _ He); assumption|]. split.
      + exact (e_val _ _ _ _ _ _ He).
      + exact (e_inj _ _ _ _ _ _ He).
    - eexists _, _. split; [exact E2|]. split; assumption. }
  exists st2, r. split; [exact E1|]. split; [assumption|]. split; [assumption|].
  destruct C as [(-> & Hr & m & Hq)|C].
  - eapply ends_thrown; eassumption.
  - destruct C as (st1 & hs2 & stk & He & Ek & Hbelow & Hq).
    destruct (typed_call_ok st1 hs2) as (stk' & r' & Ek' & _ & _ & Hends).
    { split; [rewrite (e_hs _ _ _ _ _ _ He); assumption|]. split.
      - exact (e_val _ _ _ _ _ _ He).
      - exact (e_inj _ _ _ _ _ _ He). }
    rewrite Ek' in Ek. injection Ek as <- <-.
    assert (Hlog := e_log _ _ _ _ _ _ He). rewrite Hsum in Hlog.
    exact (ends_quiet _ _ _ _ _ _ _ _ Hlog Hends Hq).
Qed.
End Level.
End Calls.
