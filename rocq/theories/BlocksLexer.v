(** The ledger while the default lexer works (C80). *)
From Coq Require Import Ascii String NArith ZArith Bool PeanoNat Lia List Permutation.
Import ListNotations.
From Verif Require Import Util Base Lexer StringConv Serializer UMap Exec ExecThrow.
From Verif Require Import Blocks BlocksSpec BlocksProofs.

Local Notation length := List.length.

Section Lex.
Variable fails : nat -> bool.
Variable what : bytes.
Variable sg : bool.
Variable cfg : lexer_cfg.
Local Notation sim := (sim fails what).

(** pushBack to a local vector of views or tokens, which an exception destroys. *)
Lemma push_local : forall V C D (v : vec V) x (own : C -> list nat) k (o : outcome D) R F,
  (forall v', items v' = items v ++ [x] -> sim (own_value v' ++ F) own F (k v') o R) ->
  sim (own_value v ++ F) own F
      (follow (unwind (vec_destroy view_kind v) (vec_push fails what view_kind v x)) k) o R.
Proof.
  intros V C D v x own k o R F Hk.
  eapply (sim_step _ _ _ _ _ _ F _ (own_value v ++ own_nothing x) own_value []) with
    (R1 := fun v' (_ : unit) => items v' = items v ++ [x]); [|counts|counts|exact Hk].
  eapply (sim_unwind _ _ _ _ (own_value v));
    [apply (vec_push_sim _ _ _ _ _ _ _ (elem_view V))|apply dok_vec, elem_view|counts].
Qed.

Lemma pre_nil : forall A B pre (own : A -> list nat) kept (m : M A) (o : outcome B) R,
  sim (pre ++ []) own kept m o R -> sim pre own kept m o R.
Proof. intros A B pre own kept m o R H. now rewrite app_nil_r in H. Qed.

Lemma splitGroup_loop_sim : forall cmd v fuel i result,
  sim (own_value result) own_value []
      (b_splitGroup_loop fails what sg cfg cmd v fuel i result)
      (splitGroup_loop sg cfg cmd v fuel i (items result)) (fun x l => items x = l).
Proof.
  intros cmd v. induction fuel as [|fuel IH]; intros i result.
  { apply sim_fault. }
  cbn [b_splitGroup_loop splitGroup_loop]. destruct (i <? v_len v).
  2: { apply sim_ret; [reflexivity|counts]. }
  apply sim_then_lift. intros i1 _. destruct (v_len v <=? i1).
  { apply sim_ret; [reflexivity|counts]. }
  apply sim_then_lift. intros i2 _.
  apply sim_then_lift. intros cb _.
  apply sim_then_lift. intros quoted _.
  destruct quoted;
    (apply sim_then_lift; intros len _; apply sim_then_lift; intros sub _;
     apply pre_nil; apply push_local; intros x Hx; rewrite <- Hx, app_nil_r; apply IH).
Qed.

Lemma createValue_sim : forall cmd t,
  sim [] own_value [] (b_createValue fails what sg cfg cmd t) (createValue sg cfg cmd t)
      (fun x l => items x = l).
Proof.
  intros cmd t. unfold b_createValue, createValue.
  assert (Hp : sim [] own_value [] (vec_push fails what view_kind VNull (t_value t))
                 (Done [t_value t]) (fun x l => items x = l)).
  { change (Done [t_value t]) with (_ <- Done tt ;; Done [t_value t]).
    intros h Hh Hhas.
    pose proof (vec_push_sim fails what _ _ _ VNull (t_value t) (elem_view view) h Hh Hhas) as H.
    destruct (vec_push fails what view_kind VNull (t_value t) h) as [[h1 [x|e]]|f];
      [|exact H|discriminate H].
    destruct H as ((y & _ & Hi) & H). split; [|exact H]. eexists. split; [reflexivity|exact Hi]. }
  destruct (t_type t); [exact Hp| |exact Hp].
  apply (splitGroup_loop_sim cmd (t_value t) (S (v_len (t_value t))) 0 VNull).
Qed.

(** Returning an error. *)
Lemma fail_sim : forall A B l F (own : A + str -> list nat) d m t (R : A + str -> expected B -> Prop),
  dok d l -> sim [] own_str [] m (Done tt) (fun s _ => holds s t) ->
  (forall s, own (inr s) = own_str s ++ F) ->
  (forall s, holds s t -> R (inr s) (Error t)) ->
  sim (l ++ F) own F (b_fail d m) (Done (Error t)) R.
Proof.
  intros A B l F own d m t R Hd Hm Ho HR. unfold b_fail.
  eapply (sim_step _ _ _ _ _ _ F _ l (fun s => own_str s ++ l) []) with
    (R1 := fun s (_ : unit) => holds s t); [|counts|counts|].
  - eapply (sim_unwind _ _ _ _ l) with (kept := l); [|exact Hd|counts].
    eapply sim_conseq; [apply (sim_frame _ _ _ _ l); exact Hm|counts|counts|].
    intros s [] Hs. split; [exact Hs|counts].
  - intros s Hs. apply (sim_then_run _ _ _ _ (own_str s ++ F) l); [exact Hd|counts|].
    apply sim_ret; [now apply HR|]. rewrite Ho. counts.
Qed.

Definition own_tokens (r : vec token + str) : list nat :=
  match r with inl v => own_value v | inr e => own_str e end.
Definition tokens_rel (r : vec token + str) (e : expected (list token)) : Prop :=
  match r, e with
  | inl v, Value l => items v = l
  | inr s, Error t => holds s t
  | _, _ => False
  end.

Lemma tokenize_loop_sim : forall cmd v fuel i tokens,
  sim (own_value tokens) own_tokens []
      (b_tokenize_loop fails what sg cfg cmd v fuel i tokens)
      (tokenize_loop sg cfg cmd v fuel i (items tokens)) tokens_rel.
Proof.
  intros cmd v. induction fuel as [|fuel IH]; intros i tokens.
  { apply sim_fault. }
  cbn [b_tokenize_loop tokenize_loop]. destruct (i <? v_len v).
  2: { apply sim_ret; [reflexivity|cbn [own_tokens]; counts]. }
  apply sim_then_lift. intros i1 _. destruct (v_len v <=? i1).
  { apply sim_ret; [reflexivity|cbn [own_tokens]; counts]. }
  apply sim_then_lift. intros c _.
  assert (Hfail : forall m t, sim [] own_str [] m (Done tt) (fun s _ => holds s t) ->
    sim (own_value tokens) own_tokens [] (b_fail (vec_destroy view_kind tokens) m)
        (Done (Error t)) tokens_rel).
  { intros m t Hm. apply pre_nil. apply fail_sim; [apply dok_vec, elem_view|exact Hm| |].
    - intros s. cbn [own_tokens]. now rewrite app_nil_r.
    - intros s Hs. exact Hs. }
  destruct (getCharType sg cfg c).
  - apply sim_then_lift. intros i2 _. destruct (v_len v <=? i2).
    + apply sim_then_lift. intros q _. apply Hfail, b_sprintf_sim.
    + apply sim_then_lift. intros len _. apply sim_then_lift. intros sub _.
      apply pre_nil. apply push_local. intros x Hx. rewrite <- Hx, app_nil_r. apply IH.
  - apply sim_then_lift. intros i2 _. destruct (v_len v <=? i2).
    + apply sim_then_lift. intros q _. apply Hfail, b_sprintf_sim.
    + apply sim_then_lift. intros len _. apply sim_then_lift. intros sub _.
      apply pre_nil. apply push_local. intros x Hx. rewrite <- Hx, app_nil_r. apply IH.
  - apply Hfail, str_make_sim.
  - apply sim_then_lift. intros [i2 ty] _. cbn [fst snd].
    apply sim_then_lift. intros len _. apply sim_then_lift. intros sub _.
    apply pre_nil. apply push_local. intros x Hx. rewrite <- Hx, app_nil_r. apply IH.
  - apply sim_then_lift. intros sub _.
    apply pre_nil. apply push_local. intros x Hx. rewrite <- Hx, app_nil_r. apply IH.
Qed.

(** ** The argument loop *)

Definition own_state (st : bstate) : list nat :=
  own_vec own_value (b_args st) ++ own_vec own_named (b_named st).
Definition plain_named (kv : view * vec view) : view * vvalue := (fst kv, items (snd kv)).
Definition plain_state (st : bstate) : pstate :=
  PState (b_primary st) (b_secondary st) (b_nextSecondary st) (map items (items (b_args st)))
         (map plain_named (items (b_named st))).

Lemma dok_state : forall st, dok (bstate_destroy st) (own_state st).
Proof.
  intros st. unfold bstate_destroy, own_state.
  eapply dok_eqv; [apply dok_both; [apply dok_vec, elem_named|apply dok_vec, elem_value]|]. counts.
Qed.

Lemma addCurrentTokens_sim : forall cmd tokens st,
  sim (own_state st ++ own_value tokens) (fun st' => own_state st' ++ own_value tokens)
      (own_state st ++ own_value tokens)
      (b_addCurrentTokens fails what sg cfg cmd tokens st)
      (addCurrentTokens sg cfg cmd (items tokens) (plain_state st))
      (fun st' p => plain_state st' = p).
Proof.
  intros cmd tokens st. unfold b_addCurrentTokens, addCurrentTokens. cbn [plain_state primary secondary].
  destruct (b_primary st) as [p|] eqn:Ep.
  2: { apply sim_ret; [|counts]. unfold plain_state. now rewrite Ep. }
  apply (vec_at_sim _ _ _ own_nothing) with (F := own_state st); [counts|]. intros pt _.
  destruct (b_secondary st) as [s|].
  - apply (vec_at_sim _ _ _ own_nothing) with (F := own_state st); [counts|]. intros sec _.
    eapply (sim_follow _ _ _ _ _ _ (own_state st ++ own_value tokens));
      [apply createValue_sim|counts|counts|]. intros v l Hv.
    eapply (sim_step _ _ _ _ _ _ (own_vec own_value (b_args st) ++ own_value tokens));
      [apply (vec_push_sim _ _ _ _ _ _ (t_value pt, v) (elem_named view))| | |].
    + unfold own_state, own_named at 3. cbn [snd]. counts.
    + unfold own_state. counts.
    + intros named Hn. apply sim_ret; [|unfold own_state; cbn [b_args b_named]; counts].
      unfold plain_state. cbn [b_primary b_secondary b_nextSecondary b_args b_named]. rewrite Hn.
      rewrite map_app. cbn [map plain_named fst snd]. unfold plain_named at 2. cbn [fst snd].
      now rewrite Hv.
  - eapply (sim_follow _ _ _ _ _ _ (own_state st ++ own_value tokens));
      [apply createValue_sim|counts|counts|]. intros v l Hv.
    eapply (sim_step _ _ _ _ _ _ (own_vec own_named (b_named st) ++ own_value tokens));
      [apply (vec_push_sim _ _ _ _ _ _ v (elem_value view))| | |].
    + unfold own_state. counts.
    + unfold own_state. counts.
    + intros args Hn. apply sim_ret; [|unfold own_state; cbn [b_args b_named]; counts].
      unfold plain_state. cbn [b_primary b_secondary b_nextSecondary b_args b_named]. rewrite Hn.
      rewrite map_app. cbn [map]. now rewrite Hv.
Qed.

Section Tokens.
Variable cmd : bytes.
Variable tokens : vec token.
Local Notation T := (own_value tokens).

Definition own_step (r : bstate + str) : list nat :=
  match r with inl st => own_state st ++ T | inr e => own_str e ++ T end.
Definition step_rel (r : bstate + str) (e : expected pstate) : Prop :=
  match r, e with
  | inl st, Value p => plain_state st = p
  | inr s, Error t => holds s t
  | _, _ => False
  end.

Lemma state_fail_sim : forall st t,
  sim (own_state st ++ T) own_step T (b_fail (bstate_destroy st) (str_make fails what t))
      (Done (Error t)) step_rel.
Proof.
  intros st t. apply fail_sim; [apply dok_state|apply str_make_sim|reflexivity|].
  intros s Hs. exact Hs.
Qed.

Lemma add_unwind_sim : forall st st0, own_state st0 = own_state st ->
  sim (own_state st ++ T) (fun st' => own_state st' ++ T) T
      (unwind (bstate_destroy st) (b_addCurrentTokens fails what sg cfg cmd tokens st0))
      (addCurrentTokens sg cfg cmd (items tokens) (plain_state st0))
      (fun st' p => plain_state st' = p).
Proof.
  intros st st0 He. eapply (sim_unwind _ _ _ _ (own_state st)); [|apply dok_state|].
  - rewrite <- He. apply addCurrentTokens_sim.
  - rewrite He. counts.
Qed.

Lemma arg_step_sim : forall i t st,
  sim (own_state st ++ T) own_step T (b_arg_step fails what sg cfg cmd tokens i t st)
      (arg_step sg cfg cmd (items tokens) i t (plain_state st)) step_rel.
Proof.
  intros i t st. unfold b_arg_step, arg_step.
  cbn [plain_state primary secondary nextSecondary p_args p_named].
  assert (Hword : sim (own_state st ++ T) own_step T
    (if b_nextSecondary st
     then match b_primary st with
          | Some _ =>
              st' <~ unwind (bstate_destroy st)
                       (b_addCurrentTokens fails what sg cfg cmd tokens
                          (BState (b_primary st) (Some i) (b_nextSecondary st) (b_args st)
                                  (b_named st))) ;;
              ret (inl (BState (b_primary st') (b_secondary st') false (b_args st') (b_named st')))
          | None => b_fail (bstate_destroy st) (str_make fails what (lit "Internal error"))
          end
     else
       st' <~ unwind (bstate_destroy st)
                (match b_primary st with
                 | Some _ => b_addCurrentTokens fails what sg cfg cmd tokens st
                 | None => ret st
                 end) ;;
       ret (inl (BState (Some i) (b_secondary st') false (b_args st') (b_named st'))))
    (if b_nextSecondary st
     then match b_primary st with
          | None => Done (Error (lit "Internal error"))
          | Some _ =>
              st0 <- addCurrentTokens sg cfg cmd (items tokens)
                      (PState (b_primary st) (Some i) (b_nextSecondary st)
                              (map items (items (b_args st)))
                              (map plain_named (items (b_named st)))) ;;
              Done (Value (PState (primary st0) (secondary st0) false (p_args st0) (p_named st0)))
          end
     else
       st0 <- match b_primary st with
              | Some _ => addCurrentTokens sg cfg cmd (items tokens) (plain_state st)
              | None => Done (plain_state st)
              end ;;
       Done (Value (PState (Some i) (secondary st0) false (p_args st0) (p_named st0)))) step_rel).
  { destruct (b_nextSecondary st) eqn:En.
    - destruct (b_primary st) as [p|] eqn:Ep; [|apply state_fail_sim].
      eapply (sim_follow _ _ _ _ _ _ []);
        [apply (add_unwind_sim st (BState (Some p) (Some i) true (b_args st) (b_named st)) eq_refl)
        |counts|counts|].
      intros st' y <-. apply sim_ret; [reflexivity|]. unfold own_step, own_state.
      cbn [b_args b_named]. counts.
    - eapply (sim_follow _ _ _ _ _ _ []) with (own1 := fun st' => own_state st' ++ T)
        (pre := own_state st ++ T) (kept1 := T) (R1 := fun st' p => plain_state st' = p);
        [|counts|counts|].
      + destruct (b_primary st) as [p|] eqn:Ep; [apply (add_unwind_sim st st eq_refl)|].
        eapply (sim_unwind _ _ _ _ (own_state st)) with (kept := own_state st ++ T);
          [|apply dok_state|counts].
        apply sim_ret; [reflexivity|counts].
      + intros st' y <-. apply sim_ret; [reflexivity|]. unfold own_step, own_state.
        cbn [b_args b_named]. counts. }
  destruct (t_type t); [exact Hword|exact Hword|].
  destruct (b_primary st) as [p|] eqn:Ep; [|apply state_fail_sim].
  destruct (b_nextSecondary st); [apply state_fail_sim|].
  apply sim_ret; [reflexivity|]. unfold own_step, own_state. cbn [b_args b_named]. counts.
Qed.

Lemma arg_loop_sim : forall rest i st,
  sim (own_state st ++ T) own_step T (b_arg_loop fails what sg cfg cmd tokens rest i st)
      (arg_loop sg cfg cmd (items tokens) rest i (plain_state st)) step_rel.
Proof.
  induction rest as [|t rest IH]; intros i st; cbn [b_arg_loop arg_loop].
  { apply sim_ret; [reflexivity|unfold own_step; counts]. }
  eapply (sim_follow _ _ _ _ _ _ []); [apply arg_step_sim|counts|counts|].
  intros [st'|e] [p|u] Hr; cbn [step_rel] in Hr; try contradiction.
  - subst p. rewrite app_nil_r. apply IH.
  - apply sim_ret; [exact Hr|unfold own_step; counts].
Qed.

Definition own_parse (r : binput view + str) : list nat := own_parsed r ++ T.
Definition parse_rel (r : binput view + str) (e : expected vinput) : Prop :=
  plain_parsed r = e /\ match r with inl _ => True | inr s => holds s (str_text s) end.

Lemma parse_error_rel : forall s t, holds s t -> parse_rel (inr s) (Error t).
Proof.
  intros s t (b & c & ->). split; [reflexivity|]. exists b, c. reflexivity.
Qed.

Lemma parse_tokens_sim :
  sim T own_parse T (b_parse_tokens fails what sg cfg cmd tokens)
      (parse_tokens sg cfg cmd (items tokens)) parse_rel.
Proof.
  unfold b_parse_tokens, parse_tokens. destruct (items tokens) as [|first rest] eqn:Ei.
  { apply sim_ret; [split; [reflexivity|exact I]|unfold own_parse, own_parsed; counts]. }
  assert (Eat : (match nth_error (items tokens) 0 with Some x => Done x | None => Fault OutOfBounds end)
                = Done first) by (rewrite Ei; reflexivity).
  match goal with |- BlocksProofs.sim _ _ _ _ _ _ ?o _ =>
    change o with (bind (Done first) (fun _ => o)) end.
  rewrite <- Eat.
  apply (vec_at_sim _ _ _ own_nothing) with (F := []); [counts|]. intros x Hx.
  rewrite Ei in Hx. injection Hx as <-. cbv beta.
  assert (Hs : forall t, sim T own_parse T (e <~ b_sprintf fails what t ;; ret (inr e))
                   (Done (Error t)) parse_rel).
  { intros t. eapply (sim_step _ _ _ _ _ _ T); [apply b_sprintf_sim|counts|counts|].
    intros s Hs. apply sim_ret; [now apply parse_error_rel|]. unfold own_parse, own_parsed. counts. }
  destruct (t_type first); [|apply Hs|apply Hs].
  rewrite <- Ei.
  eapply (sim_follow _ _ _ _ _ _ []);
    [apply (arg_loop_sim rest 1 (BState None None false VNull VNull))
    |unfold own_state; cbn [b_args b_named]; counts|counts|].
  intros [st|e] [p|u] Hr; cbn [step_rel] in Hr; try contradiction.
  - subst p. cbn [plain_state nextSecondary]. destruct (b_nextSecondary st).
    + unfold own_step. apply pre_nil. rewrite !app_nil_r.
      apply fail_sim; [apply dok_state|apply str_make_sim|reflexivity|].
      intros s Hs'. now apply parse_error_rel.
    + eapply (sim_follow _ _ _ _ _ _ []); [apply (add_unwind_sim st st eq_refl)| | |].
      * unfold own_step. counts.
      * counts.
      * intros st' y <-. apply sim_ret; [split; [reflexivity|exact I]|].
        unfold own_parse, own_parsed, own_input, own_state. cbn [bi_args bi_named]. counts.
  - apply sim_ret; [now apply parse_error_rel|]. unfold own_step, own_parse, own_parsed. counts.
Qed.
End Tokens.

Lemma parse_sim : forall cmd,
  sim [] own_parsed [] (b_parse fails what sg cfg cmd) (parse sg cfg cmd) parse_rel.
Proof.
  intros cmd. unfold b_parse, parse, b_tokenize, tokenize.
  eapply (sim_follow _ _ _ _ _ _ []);
    [apply (tokenize_loop_sim cmd (whole cmd) (S (length cmd)) 0 VNull)|counts|counts|].
  intros [tokens|e] [l|t] Hr; cbn [tokens_rel] in Hr; try contradiction.
  - subst l.
    assert (H : sim (own_value tokens) (own_parse tokens) []
                  (unwind (vec_destroy view_kind tokens) (b_parse_tokens fails what sg cfg cmd tokens))
                  (parse_tokens sg cfg cmd (items tokens)) parse_rel).
    { eapply (sim_unwind _ _ _ _ (own_value tokens)); [apply parse_tokens_sim|apply dok_vec, elem_view|].
      counts. }
    replace (parse_tokens sg cfg cmd (items tokens))
      with (bind (parse_tokens sg cfg cmd (items tokens)) (fun e => Done e))
      by (destruct (parse_tokens sg cfg cmd (items tokens)); reflexivity).
    eapply (sim_follow _ _ _ _ _ _ []); [exact H|unfold own_tokens; counts|counts|].
    intros r y Hy. apply (sim_then_run _ _ _ _ (own_parsed r) (own_value tokens));
      [apply dok_vec, elem_view|unfold own_parse; counts|].
    apply sim_ret; [exact Hy|counts].
  - apply sim_ret; [now apply parse_error_rel|]. unfold own_tokens, own_parsed. counts.
Qed.
End Lex.
