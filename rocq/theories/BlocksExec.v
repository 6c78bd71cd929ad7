(** The ledger while commands are executed (C80). *)
From Coq Require Import Ascii String NArith ZArith Bool PeanoNat Lia List Permutation.
Import ListNotations.
From Verif Require Import Util Base Lexer StringConv Serializer UMap Exec ExecThrow.
From Verif Require Import ExecThrowProofs ExecThrowMore.
From Verif Require Import Blocks BlocksSpec BlocksProofs BlocksLexer.

Local Notation length := List.length.

(** ** The default lexer as the lexer of a Bindings object *)

Lemma own_vec_map : forall A B (f : A -> B) own own' (v : vec A),
  (forall x, own' (f x) = own x) -> own_vec own' (vec_map f v) = own_vec own v.
Proof.
  intros A B f own own' [|b c l] H; [reflexivity|]. cbn [vec_map own_vec]. f_equal.
  induction l as [|x l IH]; [reflexivity|]. cbn [map flat_map]. now rewrite H, IH.
Qed.

Lemma own_value_map : forall V U (f : V -> U) v, own_value (vec_map f v) = own_value v.
Proof. intros V U f v. apply own_vec_map. reflexivity. Qed.

Lemma own_input_map : forall V U (f : V -> U) i, own_input (input_map f i) = own_input i.
Proof.
  intros V U f i. unfold own_input, input_map. cbn [bi_args bi_named]. f_equal.
  - apply own_vec_map. intros x. apply own_value_map.
  - apply own_vec_map. intros x. apply own_value_map.
Qed.

Lemma items_map : forall A B (f : A -> B) v, items (vec_map f v) = map f (items v).
Proof. intros A B f [|b c l]; reflexivity. Qed.

Lemma see_input_map : forall cmd i,
  see_input (input_map (view_bytes cmd) i) = resolve cmd (plain_input i).
Proof.
  intros cmd i. unfold see_input, input_map, resolve, plain_input, see_value.
  cbn [bi_name bi_args bi_named vi_name vi_args vi_named].
  rewrite !items_map, !map_map. f_equal.
  - apply map_ext. intros v. apply items_map.
  - apply map_ext. intros v. cbn [fst snd]. now rewrite items_map.
Qed.

Lemma gained_bal : forall h h' l, gained h h' l <-> bal h h' [] l.
Proof.
  intros h h' l. unfold gained. rewrite <- eqv_perm. unfold eqv, bal. split; intros H a;
    specialize (H a); rewrite ?occ_app in *; cbn [occ] in *; lia.
Qed.

Lemma has_nil : forall h, has h [].
Proof. intros h a. cbn. lia. Qed.

Lemma default_books : forall fails what sg cfg,
  keeps_books fails what (parse_input sg cfg) (b_default fails what sg cfg).
Proof.
  intros fails what sg cfg cmd h Hh. unfold b_default, follow, parse_input.
  pose proof (parse_sim fails what sg cfg cmd h Hh (has_nil h)) as H.
  destruct (b_parse fails what sg cfg cmd h) as [[h1 [r|e]]|f]; cbn [bind ret].
  - destruct H as ((y & -> & Hy & Hs) & K & B & _ & L). cbn [bind]. split; [exact K|]. split.
    { apply gained_bal. destruct r as [i|s]; cbn [own_parsed] in *; [|exact B].
      now rewrite own_input_map. }
    split; [|exact L]. destruct r as [i|s]; cbn [plain_parsed] in Hy; subst y.
    + eexists. split; [reflexivity|]. apply see_input_map.
    + eexists. split; [reflexivity|]. exact Hs.
  - destruct H as (-> & K & B & S & L). split; [exact K|]. split; [now apply gained_bal|]. auto.
  - rewrite H. reflexivity.
Qed.

(** ** Operations on a call context *)

Section Ctx.
Variable fails : nat -> bool.
Variable what : bytes.
Local Notation sim := (sim fails what).

Lemma see_with_errors : forall c es t,
  map str_text (items es) = map str_text (items (br_errors (bc_result c))) ++ [t] ->
  see_ctx (with_errors c es) = cc_reportError (see_ctx c) t.
Proof.
  intros c es t H. unfold see_ctx, with_errors, cc_reportError, see_result.
  cbn [bc_input bc_result br_input br_errors br_return br_output cc_input cc_result r_input r_errors
       r_return r_output]. now rewrite H.
Qed.

Lemma see_with_output : forall c o t,
  str_text o = str_text (br_output (bc_result c)) ++ t ->
  see_ctx (with_output c o) = cc_output (see_ctx c) t.
Proof.
  intros c o t H. unfold see_ctx, with_output, cc_output, see_result.
  cbn [bc_input bc_result br_input br_errors br_return br_output cc_input cc_result r_input r_errors
       r_return r_output]. now rewrite H.
Qed.

Lemma report_sim : forall P m c t,
  sim P (fun x => own_str x ++ P) P m (Done tt) (fun s _ => holds s t) ->
  sim (own_ctx c ++ P) (fun c' => own_ctx c' ++ P) (own_ctx c ++ P) (b_report fails what m c)
      (Done tt) (fun c' _ => see_ctx c' = cc_reportError (see_ctx c) t).
Proof.
  intros P m c t Hm. unfold b_report.
  eapply (sim_step _ _ _ _ _ _ (own_ctx c)); [exact Hm|counts|counts|]. intros s Hs.
  eapply (sim_step _ _ _ _ _ _ (own_input (bc_input c) ++ own_input (br_input (bc_result c)) ++
            own_option (br_return (bc_result c)) ++ own_str (br_output (bc_result c)) ++ P));
    [apply (vec_push_sim _ _ _ _ _ _ s elem_str)|counts|counts|].
  intros es He. apply sim_ret; [|unfold with_errors; counts].
  apply see_with_errors. rewrite He, map_app. cbn [map]. now rewrite (holds_text _ _ Hs).
Qed.

Lemma report_sim0 : forall m c t,
  sim [] own_str [] m (Done tt) (fun s _ => holds s t) ->
  sim (own_ctx c) own_ctx (own_ctx c) (b_report fails what m c)
      (Done tt) (fun c' _ => see_ctx c' = cc_reportError (see_ctx c) t).
Proof.
  intros m c t Hm. eapply sim_conseq; [apply (report_sim [])|counts|counts|].
  - eapply sim_conseq; [exact Hm|counts|counts|]. intros x y H. split; [exact H|counts].
  - intros x y H. split; [exact H|counts].
Qed.

Lemma log_sim : forall t c,
  sim (own_ctx c) own_ctx (own_ctx c) (b_log fails what t c) (Done tt)
      (fun c' _ => see_ctx c' = cc_output (see_ctx c) t).
Proof.
  intros t c. unfold b_log. set (o := br_output (bc_result c)).
  eapply (sim_step _ _ _ _ _ _ (own_ctx c)); [apply str_make_sim|counts|counts|]. intros s Hs.
  eapply (sim_step _ _ _ _ _ _ (own_input (bc_input c) ++ own_input (br_input (bc_result c)) ++
            own_vec own_str (br_errors (bc_result c)) ++ own_option (br_return (bc_result c)))
            _ (own_str o ++ own_str s) (fun x => own_str x ++ own_str s) (own_str o))
    with (R1 := fun x (_ : unit) => holds x (str_text o ++ t));
    [|unfold o; counts|unfold o; counts|].
  { eapply (sim_unwind _ _ _ _ (own_str s)) with (kept := own_str o ++ own_str s);
      [|apply dok_str|counts].
    apply (str_read_sim _ _ s t) with (F := own_str o); [assumption|counts|].
    apply sim_frame. apply str_append_sim. }
  intros x Hx.
  apply (sim_then_run _ _ _ _ (own_str x ++ own_input (bc_input c) ++
            own_input (br_input (bc_result c)) ++
            own_vec own_str (br_errors (bc_result c)) ++ own_option (br_return (bc_result c)))
            (own_str s)); [apply dok_str|counts|].
  apply sim_ret; [|unfold with_output; counts].
  apply see_with_output. now rewrite (holds_text _ _ Hx).
Qed.

(** Appending within the capacity does not throw. *)
Lemma str_append_room : forall s t kept,
  length (str_text s) + length t + 1 <= str_cap s ->
  sim (own_str s) own_str kept (str_append fails what s t) (Done tt)
      (fun s' _ => holds s' (str_text s ++ t) /\ str_cap s' = str_cap s).
Proof.
  intros s t kept Hc. unfold str_append, str_reserve.
  destruct (Nat.ltb_spec (str_cap s) (length (str_text s) + length t + 1)) as [Hlt|Hge]; [lia|].
  eapply (sim_step _ _ _ _ _ _ [] _ (own_str s) own_str kept)
    with (R1 := fun x (_ : unit) => x = s) (y := tt); [|counts|counts|].
  { apply sim_ret; [reflexivity|counts]. }
  intros x ->. destruct s as [|b c u]; [cbn in Hc; lia|].
  apply sim_then_touch; [cbn [app own_str occ]; rewrite one_refl; lia|].
  apply sim_ret; [|counts]. split; [exists b, c; reflexivity|reflexivity].
Qed.

Lemma logline_sim : forall t c,
  sim (own_ctx c) own_ctx (own_ctx c) (b_logline fails what t c) (Done tt)
      (fun c' _ => see_ctx c' = cc_output (cc_output (see_ctx c) t) [newline]).
Proof.
  intros t c. unfold b_logline. set (o := br_output (bc_result c)).
  set (F := own_input (bc_input c) ++ own_input (br_input (bc_result c)) ++
            own_vec own_str (br_errors (bc_result c)) ++ own_option (br_return (bc_result c))).
  eapply (sim_step _ _ _ _ _ _ (own_ctx c)); [apply str_make_sim|counts|counts|]. intros s Hs.
  eapply (sim_step _ _ _ _ _ _ F _ (own_str o ++ own_str s) (fun x => own_str x ++ own_str s) (own_str o))
    with (R1 := fun x (_ : unit) => str_text x = str_text o /\
                  length (str_text o) + length t + 1 + 1 <= str_cap x);
    [|unfold o, F; counts|unfold o, F; counts|].
  { eapply (sim_unwind _ _ _ _ (own_str s)) with (kept := own_str o ++ own_str s);
      [|apply dok_str|counts].
    apply sim_frame. rewrite (holds_text _ _ Hs). apply str_reserve_sim. }
  intros x [Hx Hc].
  eapply (sim_step _ _ _ _ _ _ F _ (own_str x ++ own_str s) (fun x => own_str x ++ own_str s) (own_str o))
    with (R1 := fun y (_ : unit) => str_text y = str_text o ++ t /\ str_cap y = str_cap x);
    [|unfold o, F; counts|unfold o, F; counts|].
  { eapply (sim_unwind _ _ _ _ (own_str s)) with (kept := own_str o ++ own_str s);
      [|apply dok_str|counts].
    apply (str_read_sim _ _ s t) with (F := own_str x); [assumption|counts|].
    apply sim_frame. eapply sim_conseq; [apply (str_append_room x t (own_str o))|counts|counts|].
    - rewrite Hx. lia.
    - intros y [] [Hy Hc']. split; [|counts]. split; [|exact Hc'].
      now rewrite (holds_text _ _ Hy), Hx. }
  intros y [Hy Hc'].
  eapply (sim_step _ _ _ _ _ _ F _ (own_str y ++ own_str s) (fun x => own_str x ++ own_str s) (own_str o))
    with (R1 := fun z (_ : unit) => str_text z = (str_text o ++ t) ++ [newline]);
    [|unfold o, F; counts|unfold o, F; counts|].
  { eapply (sim_unwind _ _ _ _ (own_str s)) with (kept := own_str o ++ own_str s);
      [|apply dok_str|counts].
    apply sim_frame. eapply sim_conseq; [apply (str_append_room y [newline] (own_str o))|counts|counts|].
    - rewrite Hy, app_length. cbn [length]. lia.
    - intros z [] [Hz _]. split; [|counts]. now rewrite (holds_text _ _ Hz), Hy. }
  intros z Hz.
  apply (sim_then_run _ _ _ _ (own_str z ++ F) (own_str s)); [apply dok_str|counts|].
  apply sim_ret; [|unfold with_output, F; counts].
  rewrite <- (see_with_output c y t Hy).
  change (with_output c z) with (with_output (with_output c y) z).
  apply see_with_output. rewrite Hz.
  cbn [with_output bc_result br_output]. now rewrite Hy.
Qed.

Lemma fill_sim : forall ts v,
  sim (own_value v) own_value [] (b_fill fails what v ts) (Done tt)
      (fun x _ => items x = items v ++ ts).
Proof.
  induction ts as [|t ts IH]; intros v; cbn [b_fill].
  { apply sim_ret; [now rewrite app_nil_r|counts]. }
  apply pre_nil. apply push_local. intros x Hx. rewrite app_nil_r.
  eapply sim_conseq; [apply IH|counts|counts|]. intros y [] Hy. split; [|counts].
  rewrite Hy, Hx, <- app_assoc. reflexivity.
Qed.

Lemma flat_map_set : forall A (own : A -> list nat) l i old x, nth_error l i = Some old ->
  eqv (flat_map own (set_nth l i x) ++ own old) (flat_map own l ++ own x).
Proof.
  intros A own. induction l as [|y l IH]; intros [|i] old x H; try discriminate.
  - injection H as ->. cbn [set_nth flat_map]. counts.
  - cbn [set_nth flat_map]. specialize (IH i old x H). counts.
Qed.

Lemma map_set_nth : forall A B (f : A -> B) l i x, map f (set_nth l i x) = set_nth (map f l) i (f x).
Proof.
  intros A B f. induction l as [|y l IH]; intros [|i] x; cbn; [reflexivity..|]. now rewrite IH.
Qed.

Lemma set_nth_none : forall A (l : list A) i x, nth_error l i = None -> set_nth l i x = l.
Proof.
  intros A. induction l as [|y l IH]; intros [|i] x H; cbn; try reflexivity; try discriminate.
  cbn in H. now rewrite (IH i x H).
Qed.

Lemma put_sim : forall i nv c,
  sim (own_ctx c) own_ctx (own_ctx c) (b_put fails what i nv c) (Done tt)
      (fun c' _ => see_ctx c' = cc_put_named (see_ctx c) i nv).
Proof.
  intros i nv c. unfold b_put.
  eapply (sim_step _ _ _ _ _ _ (own_ctx c)); [apply (fill_sim (snd nv) VNull)|counts|counts|].
  intros v Hv. cbn [items app] in Hv.
  assert (Hnone : forall l, items (bi_named (bc_input c)) = l -> nth_error l i = None ->
    see_ctx c = cc_put_named (see_ctx c) i nv).
  { intros l El Hn. unfold cc_put_named, see_ctx, see_input. cbn [cc_input i_name i_args i_named].
    rewrite set_nth_none; [reflexivity|]. rewrite El, nth_error_map, Hn. reflexivity. }
  destruct (bi_named (bc_input c)) as [|b cap l] eqn:En.
  - apply (sim_then_run _ _ _ _ (own_ctx c) (own_value v)); [apply dok_vec, elem_view|counts|].
    apply sim_ret; [|counts]. apply (Hnone []); [reflexivity|]. now destruct i.
  - destruct (nth_error l i) as [old|] eqn:Ei.
    + apply sim_then_touch.
      { unfold own_ctx, own_input. rewrite En, !occ_app. cbn [own_vec occ]. rewrite one_refl. lia. }
      pose proof (flat_map_set _ own_named l i old (fst nv, v) Ei) as Hset.
      unfold own_named at 2 4 in Hset. cbn [snd] in Hset.
      apply (sim_then_run _ _ _ _ (own_ctx (with_named c (VAt b cap (set_nth l i (fst nv, v)))))
               (own_value (snd old))); [apply dok_vec, elem_view| |].
      { unfold own_ctx, own_input, with_named. cbn [bc_input bc_result bi_args bi_named].
        rewrite En. cbn [own_vec]. intros a. specialize (Hset a).
        repeat first [progress cbn [occ app] in *|progress rewrite ?occ_app in *]. lia. }
      apply sim_ret; [|counts].
      unfold see_ctx, with_named, cc_put_named, see_input.
      cbn [bc_input bc_result bi_name bi_args bi_named cc_input cc_result i_name i_args i_named].
      rewrite En. cbn [items]. rewrite map_set_nth. cbn [fst snd]. unfold see_value at 3.
      rewrite Hv. destruct nv; reflexivity.
    + apply (sim_then_run _ _ _ _ (own_ctx c) (own_value v)); [apply dok_vec, elem_view|counts|].
      apply sim_ret; [|counts]. now apply (Hnone l).
Qed.
End Ctx.
