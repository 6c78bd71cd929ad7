(** Proofs about ArgPass.v: detail::invoke and unpackAndInvoke. *)
From Coq Require Import Bool PeanoNat Lia List Permutation.
From Verif Require Import Base ArgPass ArgPassSpec ArgPassProofs ArgPassCalls.
Import ListNotations.

Lemma tidy_intro : forall V (O O' : list (option V)), List.length O <= List.length O' ->
  (forall o, o < List.length O -> nth_error O' o = nth_error O o) ->
  dead_above (List.length O) O' -> tidy O O'.
Proof.
  intros V O. induction O as [|x O IH]; intros O' HL Hk Hd.
  - exists (List.length O'). cbn [app]. clear HL Hk. unfold dead_above in Hd. cbn in Hd.
    induction O' as [|y O' IH']; [reflexivity|]. cbn [List.length repeat].
    assert (Hy := Hd 0 ltac:(cbn; lia)). cbn in Hy. injection Hy as ->. f_equal. apply IH'.
    intros o Ho. apply (Hd (Datatypes.S o)). cbn. lia.
  - destruct O' as [|y O']; [cbn in HL; lia|].
    assert (Hy := Hk 0 ltac:(cbn; lia)). cbn in Hy. injection Hy as ->.
    destruct (IH O') as [m ->].
    + cbn in HL. lia.
    + intros o Ho. apply (Hk (Datatypes.S o)). cbn. lia.
    + intros o Ho. apply (Hd (Datatypes.S o)). cbn. lia.
    + exists m. reflexivity.
Qed.

Section Invoke.
Context {V E S : Type}.
Variable moved torn : V -> V.
Variable show : V -> S.
Variable raises : list (event V) -> bool.
Variable order : nat -> nat -> list nat.
Variable dorder : nat -> list nat -> list nat.
Hypothesis Horder : any_order order.
Hypothesis Hdorder : any_dorder dorder.

Section Convert.
Variable convs : list (@conversion V E).
Variable st0 : state V.
Let len0 := List.length (objs st0).
Let n := List.length convs.

Record cinv (D : list nat) (st : state V) (xs : list (@expected_arg E)) (owned : list nat) : Prop := {
  c_xs : List.length xs = n;
  c_val : forall i v, In i D -> nth_error convs i = Some (CValue v) ->
    exists o, nth_error xs i = Some (XVal o) /\ len0 <= o /\ nth_error (objs st) o = Some (Some v);
  c_err : forall i e, In i D -> nth_error convs i = Some (CError e) -> nth_error xs i = Some (XErr e);
  c_thr : forall i, In i D -> nth_error convs i <> Some CThrows;
  c_inj : forall i j o, In i D -> In j D -> nth_error xs i = Some (XVal o) ->
    nth_error xs j = Some (XVal o) -> i = j;
  c_obj : exists ws, objs st = objs st0 ++ map Some ws;
  c_owned : owned = rev (seq len0 (List.length (objs st) - len0));
  c_log : quiet (log st0) (log st) 0 }.

Lemma convert_all_ok : forall ord D st xs owned, cinv D st xs owned ->
  NoDup ord -> (forall i, In i ord -> i < n /\ ~ In i D) -> (forall i, In i D -> i < n) ->
  exists st' x owned', convert_all convs ord st xs owned = Done (st', x, owned') /\
    match x with
    | Some xs' => cinv (rev ord ++ D) st' xs' owned'
    | None => (exists ws, objs st' = objs st0 ++ map Some ws) /\
              owned' = rev (seq len0 (List.length (objs st') - len0)) /\
              quiet (log st0) (log st') 0 /\ In CThrows convs
    end.
Proof.
  induction ord as [|i ord IH]; intros D st xs owned HI Hnd Hin Hr.
  - exists st, (Some xs), owned. split; [reflexivity|exact HI].
  - inversion Hnd as [|? ? Hni Hnd']; subst.
    destruct (Hin i (or_introl eq_refl)) as [Hi HiD].
    destruct HI as [Hxs Hval Herr Hthr Hinj Hobj Howned Hlog].
    cbn [convert_all].
    destruct (nth_error convs i) as [c|] eqn:Hc; [|apply nth_error_None in Hc; unfold n in Hi; lia].
    assert (Hin' : forall j, In j ord -> j < n /\ ~ In j (i :: D)).
    { intros j Hj. destruct (Hin j (or_intror Hj)) as [Hjn HjD]. split; [assumption|].
      intros [->|]; contradiction. }
    assert (Hr' : forall j, In j (i :: D) -> j < n) by (intros j [<-|Hj]; auto).
    assert (Hreb : forall l : list nat, rev (i :: ord) ++ l = rev ord ++ i :: l)
      by (intro l; cbn; now rewrite <- app_assoc).
    destruct c as [v|e|].
    + cbn [make note objs log].
      assert (Hrest : cinv (i :: D) (St (objs st ++ [Some v]) (EMake :: log st))
                        (set_nth xs i (XVal (List.length (objs st)))) (List.length (objs st) :: owned)).
      { destruct Hobj as [ws Hws].
        assert (HL : len0 <= List.length (objs st)) by (rewrite Hws, app_length; unfold len0; lia).
        constructor; cbn [objs log].
        - now rewrite set_nth_length.
        - intros j w Hj Hw. destruct (Nat.eq_dec i j) as [<-|Hne].
          + rewrite Hc in Hw. injection Hw as <-. exists (List.length (objs st)).
            rewrite set_nth_eq by lia. split; [reflexivity|]. split; [assumption|].
            rewrite nth_error_app2 by lia. now rewrite Nat.sub_diag.
          + destruct Hj as [->|Hj]; [contradiction|]. destruct (Hval j w Hj Hw) as (o & A & B & C).
            exists o. rewrite set_nth_neq by assumption. split; [assumption|]. split; [assumption|].
            rewrite nth_error_app1; [assumption|]. eapply nth_error_bound; eassumption.
        - intros j e Hj He. destruct (Nat.eq_dec i j) as [<-|Hne]; [congruence|].
          destruct Hj as [->|Hj]; [contradiction|]. rewrite set_nth_neq by assumption. now apply Herr.
        - intros j [<-|Hj]; [congruence|auto].
        - assert (Hnew : forall j o, In j D -> nth_error xs j = Some (XVal o) -> o <> List.length (objs st)).
          { intros j o Hj Hjo ->. destruct (nth_error convs j) as [[w|e|]|] eqn:Hcj.
            - destruct (Hval j w Hj Hcj) as (o & A & _ & C). rewrite Hjo in A. injection A as <-.
              apply nth_error_bound in C. lia.
            - rewrite (Herr j e Hj Hcj) in Hjo. discriminate.
            - now apply (Hthr j Hj).
            - apply nth_error_None in Hcj. specialize (Hr j Hj). unfold n in Hr. lia. }
          intros j k o Hj Hk Hjo Hko.
          destruct (Nat.eq_dec i j) as [<-|Hij]; destruct (Nat.eq_dec i k) as [<-|Hik]; [reflexivity| | |].
          + rewrite set_nth_eq in Hjo by lia. rewrite set_nth_neq in Hko by assumption.
            destruct Hk as [->|Hk]; [contradiction|]. exfalso. apply (Hnew k o Hk Hko). congruence.
          + rewrite set_nth_eq in Hko by lia. rewrite set_nth_neq in Hjo by assumption.
            destruct Hj as [->|Hj]; [contradiction|]. exfalso. apply (Hnew j o Hj Hjo). congruence.
          + rewrite set_nth_neq in Hjo, Hko by assumption.
            destruct Hj as [->|Hj]; [contradiction|]. destruct Hk as [->|Hk]; [contradiction|].
            now apply (Hinj j k o).
        - exists (ws ++ [v]). rewrite Hws, map_app, app_assoc. reflexivity.
        - rewrite Howned, app_length. cbn [List.length].
          replace (List.length (objs st) + 1 - len0) with (Datatypes.S (List.length (objs st) - len0)) by lia.
          rewrite seq_S, rev_app_distr. cbn. f_equal. lia.
        - destruct Hlog as (A & B & C). repeat split; assumption. }
      destruct (IH _ _ _ _ Hrest Hnd' Hin' Hr') as (st' & x & ow & E1 & X).
      exists st', x, ow. split; [exact E1|]. destruct x; [|exact X]. rewrite Hreb. exact X.
    + assert (Hrest : cinv (i :: D) st (set_nth xs i (XErr e)) owned).
      { constructor; try assumption.
        - now rewrite set_nth_length.
        - intros j w Hj Hw. destruct (Nat.eq_dec i j) as [<-|Hne]; [congruence|].
          destruct Hj as [->|Hj]; [contradiction|]. rewrite set_nth_neq by assumption. now apply Hval.
        - intros j e' Hj He. destruct (Nat.eq_dec i j) as [<-|Hne].
          + rewrite set_nth_eq by lia. congruence.
          + destruct Hj as [->|Hj]; [contradiction|]. rewrite set_nth_neq by assumption. now apply Herr.
        - intros j [<-|Hj]; [congruence|auto].
        - intros j k o Hj Hk Hjo Hko.
          destruct (Nat.eq_dec i j) as [<-|Hij]; [rewrite set_nth_eq in Hjo by lia; discriminate|].
          destruct (Nat.eq_dec i k) as [<-|Hik]; [rewrite set_nth_eq in Hko by lia; discriminate|].
          rewrite set_nth_neq in Hjo, Hko by assumption.
          destruct Hj as [->|Hj]; [contradiction|]. destruct Hk as [->|Hk]; [contradiction|].
          now apply (Hinj j k o). }
      destruct (IH _ _ _ _ Hrest Hnd' Hin' Hr') as (st' & x & ow & E1 & X).
      exists st', x, ow. split; [exact E1|]. destruct x; [|exact X]. rewrite Hreb. exact X.
    + exists st, None, owned. split; [reflexivity|]. split; [assumption|]. split; [assumption|].
      split; [assumption|]. eapply nth_error_In; eassumption.
Qed.
End Convert.

(** The Expected parameters, against the conversions. *)
Definition matches (O : list (option V)) (c : @conversion V E) (x : @expected_arg E) : Prop :=
  match c, x with
  | CValue v, XVal o => nth_error O o = Some (Some v)
  | CError e, XErr e' => e' = e
  | _, _ => False
  end.

Lemma matches_errors : forall O convs xs, Forall2 (matches O) convs xs ->
  errors_of xs = all_errors convs /\
  (any_error xs = false -> all_errors convs = [] /\ exists vs, all_values convs = Some vs) /\
  (any_error xs = true -> all_errors convs <> []).
Proof.
  induction 1 as [|c x convs xs Hm HF (IH1 & IH2 & IH3)].
  - repeat split; try discriminate. exists []. reflexivity.
  - destruct c as [v|e|], x as [o|e']; cbn in Hm; try contradiction; cbn.
    + split; [assumption|]. split; [|assumption]. intro Ha. destruct (IH2 Ha) as [A [vs Hv]].
      split; [assumption|]. rewrite Hv. eauto.
    + subst e'. split; [now rewrite IH1|]. split; [discriminate|]. intros _. discriminate.
Qed.

Lemma matches_values : forall O convs xs, Forall2 (matches O) convs xs -> any_error xs = false ->
  exists l, @values_of V E xs = Done l /\ List.length l = List.length convs /\
    (forall i a, nth_error l i = Some a -> exists o, a = AObj expected_value o /\
        nth_error xs i = Some (XVal o)) /\
    (forall vs i a v, all_values convs = Some vs -> nth_error l i = Some a -> nth_error vs i = Some v ->
        exists o, a = AObj expected_value o /\ nth_error O o = Some (Some v)) /\
    (forall vs, all_values convs = Some vs -> List.length vs = List.length convs).
Proof.
  induction 1 as [|c x convs xs Hm HF IH]; intro Ha.
  - exists []. cbn. repeat split; try (intros [|i]; discriminate).
    + intros vs [|i] a v _; discriminate.
    + intros vs Hvs. now injection Hvs as <-.
  - destruct c as [v|e|], x as [o|e']; cbn in Hm; try contradiction; cbn in Ha; [|discriminate].
    destruct (IH Ha) as (l & E1 & L & Hx & Hv & HL). exists (AObj expected_value o :: l).
    cbn [values_of]. rewrite E1. cbn [bind]. split; [reflexivity|]. split; [cbn; lia|]. split; [|split].
    + intros [|i] a Hi; cbn in Hi; [injection Hi as <-; eauto|]. now apply Hx.
    + intros vs i a w Hvs Hi Hw. cbn in Hvs. destruct (all_values convs) as [ws|]; [|discriminate].
      injection Hvs as <-. destruct i as [|i]; cbn in Hi, Hw.
      * injection Hi as <-. injection Hw as <-. eauto.
      * now apply (Hv ws i a w).
    + intros vs Hvs. cbn in Hvs. destruct (all_values convs) as [ws|]; [|discriminate].
      injection Hvs as <-. cbn. now rewrite (HL ws).
Qed.

Variable func : list V -> list V * @ending V.
Variable ctx : option (ptype * V).
Variable ps : list ptype.
Hypothesis Hsane : sane_functor func (all_params ctx ps).
Hypothesis Hsig : Forall accepted (all_params ctx ps).

Let sig := all_params ctx ps.

Lemma invoke_ok : forall (convs : list (@conversion V E)) (st : state V),
  List.length convs = List.length ps ->
  exists st' r,
    invoke moved torn show raises order dorder func sig (option_map snd ctx) convs st = Done (st', r) /\
    tidy (objs st) (objs st') /\ copies (log st') = copies (log st) /\
    match r with
    | Ok (Reported es) => es = all_errors convs /\ es <> [] /\ ~ In CThrows convs /\
                          calls (log st') = calls (log st) /\ moves (log st') = moves (log st)
    | Ok (Returned s) =>
        exists vs, all_values convs = Some vs /\
          calls (log st') = seen (option_map snd ctx) vs :: calls (log st) /\
          moves (log st') = expected_moves ctx ps + moves (log st) /\
          answer_text show sig (seen (option_map snd ctx) vs)
            (fst (func (seen (option_map snd ctx) vs))) (snd (func (seen (option_map snd ctx) vs))) = Some s
    | Thrown =>
        (In CThrows convs /\ calls (log st') = calls (log st)) \/
        exists vs, all_values convs = Some vs /\ reason raises func (seen (option_map snd ctx) vs) /\
          (calls (log st') = calls (log st) \/
           calls (log st') = seen (option_map snd ctx) vs :: calls (log st))
    end.
Proof.
  intros convs st HLc. unfold invoke.
  set (n := List.length convs).
  assert (Hperm := Horder 0 n).
  assert (Hinit : cinv convs st [] st (repeat (XVal 0) n) []).
  { constructor.
    - apply repeat_length.
    - intros i v [].
    - intros i e [].
    - intros i [].
    - intros i j o [].
    - exists []. now rewrite app_nil_r.
    - now rewrite Nat.sub_diag.
    - repeat split. }
  destruct (convert_all_ok convs st (order 0 n) [] st (repeat (XVal 0) n) [] Hinit) as (st1 & x & ow & E1 & X).
  { eapply Permutation_NoDup; [apply Permutation_sym; exact Hperm|]. apply seq_NoDup. }
  { intros i Hi. split; [|intros []]. apply (Permutation_in _ Hperm) in Hi. apply in_seq in Hi. unfold n in Hi. lia. }
  { intros i []. }
  rewrite E1. cbn [bind].
  assert (Hal : forall ws (O : list (option V)), O = objs st ++ map Some ws ->
            forall o, List.length (objs st) <= o < List.length O -> alive O o).
  { intros ws O -> o Ho. rewrite app_length, map_length in Ho. unfold alive.
    rewrite nth_error_app2 by lia. rewrite nth_error_map.
    destruct (nth_error ws (o - List.length (objs st))) as [w|] eqn:Hw; [cbn; eauto|].
    apply nth_error_None in Hw. lia. }
  destruct x as [xs|].
  - rewrite app_nil_r in X.
    assert (HD : forall i, i < n -> In i (rev (order 0 n))).
    { intros i Hi. rewrite <- in_rev. eapply Permutation_in; [apply Permutation_sym; exact Hperm|].
      apply in_seq. lia. }
    destruct X as [Hxs Hval Herr Hthr Hinj Hobj Howned Hlog]. fold n in Hxs.
    destruct Hobj as [ws Hws].
    assert (HL1 : List.length (objs st) <= List.length (objs st1)) by (rewrite Hws, app_length; lia).
    assert (HF : Forall2 (matches (objs st1)) convs xs).
    { assert (Hpt : forall i c x, nth_error convs i = Some c -> nth_error xs i = Some x ->
                      matches (objs st1) c x).
      { intros i c x Hc Hx. assert (B := nth_error_bound _ _ _ _ Hc). fold n in B.
        destruct c as [v|e|].
        - destruct (Hval i v (HD i B) Hc) as (o & A & _ & C). rewrite Hx in A. injection A as ->. exact C.
        - rewrite (Herr i e (HD i B) Hc) in Hx. injection Hx as <-. reflexivity.
        - now contradiction (Hthr i (HD i B)). }
      clear -Hpt Hxs. unfold n in Hxs. revert xs Hxs Hpt.
      induction convs as [|c convs IH]; intros [|x xs] HL Hpt; cbn in HL; try lia; constructor.
      - now apply (Hpt 0).
      - apply IH; [lia|]. intros i c' x' Hc Hx. now apply (Hpt (Datatypes.S i)). }
    assert (HnT : ~ In CThrows convs).
    { intro H. apply In_nth_error in H. destruct H as [i Hi].
      assert (B := nth_error_bound _ _ _ _ Hi). now apply (Hthr i (HD i B)). }
    assert (Hin : forall o, In o (dorder 0 ow) <-> List.length (objs st) <= o < List.length (objs st1)).
    { intros o. split; intro Ho.
      - apply (Permutation_in _ (Hdorder 0 ow)) in Ho. rewrite Howned in Ho.
        apply in_rev in Ho. apply in_seq in Ho. lia.
      - eapply Permutation_in; [apply Permutation_sym, Hdorder|]. rewrite Howned.
        apply -> in_rev. apply in_seq. lia. }
    assert (Hnd : NoDup (dorder 0 ow)).
    { eapply Permutation_NoDup; [apply Permutation_sym, Hdorder|]. rewrite Howned.
      apply NoDup_rev, seq_NoDup. }
    assert (Hpre : forall o, o < List.length (objs st) -> nth_error (objs st1) o = nth_error (objs st) o).
    { intros o Ho. rewrite Hws. now apply nth_error_app1. }
    destruct (matches_errors (objs st1) convs xs HF) as (M1 & M2 & M3).
    destruct (any_error xs) eqn:Hany.
    + destruct (destroy_all_ok (dorder 0 ow) st1 Hnd) as (st' & E3 & L3 & Dd & Kd & Q3).
      { intros o Ho. apply (Hal ws); [assumption|]. now apply Hin. }
      rewrite E3. cbn [bind]. eexists _, _. split; [reflexivity|]. split; [|split].
      * apply tidy_intro; [lia| |].
        -- intros o Ho. rewrite Kd by (rewrite Hin; lia). now apply Hpre.
        -- intros o Ho. apply Dd. apply Hin. lia.
      * unfold quiet in *. intuition congruence.
      * rewrite M1. split; [reflexivity|]. split; [now apply M3|]. split; [assumption|].
        unfold quiet in *. split; [intuition congruence|lia].
    + destruct (M2 eq_refl) as [Hnoerr [vs Hvs]].
      destruct (matches_values (objs st1) convs xs HF Hany) as (l & El & Ll & Hlx & Hlv & Hlvs).
      rewrite El. cbn [bind].
      set (args := match option_map snd ctx with Some c => [ATemp c] | None => [] end ++ l).
      set (see := seen (option_map snd ctx) vs).
      assert (HLs : List.length see = List.length sig).
      { unfold see, sig, seen, all_params. specialize (Hlvs vs Hvs).
        destruct ctx as [[p c]|]; cbn; lia. }
      assert (HLa : List.length args = List.length sig).
      { unfold args, sig, all_params. destruct ctx as [[p c]|]; cbn; lia. }
      assert (Hacc : forall i p, nth_error sig i = Some p -> accepted p).
      { intros i p Hp. apply nth_error_In in Hp. rewrite Forall_forall in Hsig. now apply Hsig. }
      assert (Hargs : forall i p a v, nth_error sig i = Some p -> nth_error args i = Some a ->
                nth_error see i = Some v -> arg_ok (objs st1) (adjusted p) a v).
      { intros i p a v Hp Ha Hv. specialize (Hacc i p Hp).
        assert (Huser : forall j, nth_error l j = Some a -> nth_error vs j = Some v ->
                  arg_ok (objs st1) (adjusted p) a v).
        { intros j Hj Hw. destruct (Hlv vs j a v Hvs Hj Hw) as (o & -> & Ho).
          cbn [arg_ok expected_value]. split; [assumption|].
          rewrite (accepted_first p Hacc). destruct (by_value p); auto. }
        unfold args, see, seen in Ha, Hv. destruct ctx as [[q c]|]; cbn in Ha, Hv.
        - destruct i as [|i]; cbn in Ha, Hv.
          + injection Ha as <-. injection Hv as <-. split; [reflexivity|]. now apply accepted_temp.
          + now apply (Huser i).
        - now apply (Huser i). }
      assert (Hobjs : forall i a o, nth_error args i = Some a -> arg_obj a = Some o ->
                exists j, nth_error xs j = Some (XVal o) /\
                          i = match ctx with Some _ => Datatypes.S j | None => j end).
      { intros i a o Ha Ho.
        assert (Huser : forall j, nth_error l j = Some a -> nth_error xs j = Some (XVal o)).
        { intros j Hj. destruct (Hlx j a Hj) as (o' & -> & Hx). cbn in Ho. now injection Ho as <-. }
        unfold args in Ha. destruct ctx as [[q c]|]; cbn in Ha.
        - destruct i as [|i]; cbn in Ha; [injection Ha as <-; discriminate|].
          exists i. split; [now apply Huser|reflexivity].
        - exists i. split; [now apply Huser|reflexivity]. }
      assert (Hxj : forall j o, nth_error xs j = Some (XVal o) -> j < n)
        by (intros j o Hj; apply nth_error_bound in Hj; lia).
      assert (Hdist : forall i j a b o, nth_error args i = Some a -> nth_error args j = Some b ->
                arg_obj a = Some o -> arg_obj b = Some o -> i = j).
      { intros i j a b o Ha Hb Hao Hbo.
        destruct (Hobjs i a o Ha Hao) as (i' & Hi' & ->). destruct (Hobjs j b o Hb Hbo) as (j' & Hj' & ->).
        assert (i' = j') by (apply (Hinj i' j' o); eauto). subst. reflexivity. }
      assert (Hmv : list_sum (map (mv_at (wrapper_args sig) args) (seq 0 (List.length args)))
                    = list_sum (map bv ps)).
      { assert (Huser : forall i p a, nth_error sig i = Some p ->
                  (exists o, a = @AObj V expected_value o) -> mv (adjusted p) a = bv p).
        { intros i p a Hp [o ->]. cbn [mv expected_value]. rewrite (accepted_first p (Hacc i p Hp)).
          unfold bv. destruct (by_value p); reflexivity. }
        rewrite HLa.
        assert (Hat : forall i p a, nth_error sig i = Some p -> nth_error args i = Some a ->
                  mv_at (wrapper_args sig) args i = mv (adjusted p) a).
        { intros i p a Hp Ha. unfold mv_at. rewrite (wargs_nth sig i p Hp), Ha. reflexivity. }
        destruct ctx as [[q c]|] eqn:Hctx.
        - cbn [all_params] in sig. subst sig. cbn [List.length seq map].
          unfold list_sum at 1. cbn [fold_right]. fold (list_sum (map (mv_at (wrapper_args (q :: ps)) args) (seq 1 (List.length ps)))).
          rewrite (Hat 0 q (ATemp c)) by reflexivity. cbn [mv]. cbn [Nat.add].
          rewrite <- seq_shift, map_map. apply sum_seq_nth. intros i p Hp.
          destruct (nth_error l i) as [a|] eqn:Hl; [|apply nth_error_None in Hl; apply nth_error_bound in Hp; lia].
          rewrite (Hat (Datatypes.S i) p a Hp Hl). apply (Huser (Datatypes.S i)); [exact Hp|].
          destruct (Hlx i a Hl) as (o & -> & _). eauto.
        - cbn [all_params] in sig. subst sig. apply sum_seq_nth. intros i p Hp.
          destruct (nth_error l i) as [a|] eqn:Hl; [|apply nth_error_None in Hl; apply nth_error_bound in Hp; lia].
          rewrite (Hat i p a Hp Hl). apply (Huser i); [exact Hp|].
          destruct (Hlx i a Hl) as (o & -> & _). eauto. }
      destruct (wrapper_invoke_ok moved torn show raises order dorder Horder Hdorder func sig Hsane Hsig
                  see HLs st1 args _ HLa Hargs Hdist Hmv) as (st2 & r & E2 & R2 & D2 & Hends).
      rewrite E2. cbn [bind].
      destruct (destroy_all_ok (dorder 0 ow) st2 Hnd) as (st' & E3 & L3 & Dd & Kd & Q3).
      { intros o Ho. apply Hin in Ho. destruct R2 as [_ R2]. apply (R2 o ltac:(lia)).
        now apply (Hal ws). }
      rewrite E3. cbn [bind]. eexists _, _. split; [reflexivity|].
      destruct R2 as [L2 R2]. split; [|split].
      * apply tidy_intro; [lia| |].
        -- intros o Ho. rewrite Kd by (rewrite Hin; lia). destruct (R2 o ltac:(lia)) as [_ H].
           rewrite H; [now apply Hpre|]. intros (i & a & Ha & Hao).
           destruct (Hobjs i a o Ha Hao) as (j & Hj & _).
           assert (Hjn := Hxj j o Hj).
           destruct (nth_error convs j) as [[v|e|]|] eqn:Hcj.
           ++ destruct (Hval j v (HD j Hjn) Hcj) as (o' & A & B & _). rewrite Hj in A.
              injection A as <-. lia.
           ++ rewrite (Herr j e (HD j Hjn) Hcj) in Hj. discriminate.
           ++ now contradiction (Hthr j (HD j Hjn)).
           ++ apply nth_error_None in Hcj. unfold n in Hjn. lia.
        -- intros o Ho. destruct (Nat.lt_ge_cases o (List.length (objs st1))) as [Hlt|Hge].
           ++ apply Dd. apply Hin. lia.
           ++ rewrite Kd by (rewrite Hin; lia). apply D2. lia.
      * destruct Hends as [Hc _]. unfold quiet in *. intuition congruence.
      * assert (HM : list_sum (map bv ps) + 2 * list_sum (map bv sig) = expected_moves ctx ps).
        { unfold expected_moves, sig, all_params. rewrite <- count_bv.
          destruct ctx as [[q c]|]; [|lia]. cbn [map]. unfold list_sum at 2. cbn [fold_right].
          fold (list_sum (map bv ps)). unfold bv at 2. destruct (by_value q); lia. }
        destruct Hends as [_ Hends]. unfold quiet in *. destruct r as [s|].
        -- destruct Hends as (F1 & F2 & F3). exists vs. fold see. split; [assumption|].
           destruct Hlog as (_ & G1 & G3). destruct Q3 as (_ & G2 & G4).
           split; [congruence|]. split; [lia|assumption].
        -- destruct Hends as [F1 F2]. right. exists vs. fold see. split; [assumption|]. split; [assumption|].
           destruct Hlog as (_ & G1 & _). destruct Q3 as (_ & G2 & _).
           destruct F1 as [F1|F1]; [left|right]; congruence.
  - destruct X as ([ws Hws] & Howned & Hq & HT).
    assert (HL1 : List.length (objs st) <= List.length (objs st1)) by (rewrite Hws, app_length; lia).
    assert (Hin : forall o, In o ow <-> List.length (objs st) <= o < List.length (objs st1)).
    { intros o. rewrite Howned, <- in_rev, in_seq. lia. }
    destruct (destroy_all_ok ow st1) as (st' & E3 & L3 & Dd & Kd & Q3).
    { rewrite Howned. apply NoDup_rev, seq_NoDup. }
    { intros o Ho. apply (Hal ws); [assumption|]. now apply Hin. }
    rewrite E3. cbn [bind]. eexists _, _. split; [reflexivity|]. split; [|split].
    + apply tidy_intro; [lia| |].
      * intros o Ho. rewrite Kd by (rewrite Hin; lia). rewrite Hws. now apply nth_error_app1.
      * intros o Ho. apply Dd. apply Hin. lia.
    + unfold quiet in *. intuition congruence.
    + left. split; [assumption|]. unfold quiet in *. intuition congruence.
Qed.
End Invoke.
