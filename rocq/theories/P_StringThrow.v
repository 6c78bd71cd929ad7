(** C71: coil::String and the output of a command when memory runs out. *)
From Coq Require Import Ascii String NArith ZArith Bool PeanoNat Lia List.
From Verif Require Import Util Base StringConv Mem MemProofs StringMem StringMemSpec StringMemProofs P_StringMem
  Printf PrintfSpec PrintfProofs P_Printf StringThrow StringThrowSpec StringThrowProofs.
Import ListNotations.
Local Notation length := List.length.

(** ** C71 *)
Section C71.
Variable W : nat.
Variable full : list nat -> bool.

Lemma related_reads : forall a w, related W a w ->
  forall i, match a i, w_str w i with
            | Some c, Some s => reads w s c
            | None, None => True
            | _, _ => False
            end.
Proof.
  intros a w R i. pose proof (rl_obj _ _ _ R i) as Hi.
  destruct (a i) as [c|], (w_str w i) as [s|]; auto. destruct Hi as (Hr & Ht).
  split; [apply (rep_length _ _ _ _ _ Hr)|].
  inversion Hr as [H1 H2 H3 H4 E1 E2|l0 k cs Hh E1 E2].
  - split; [intros i0 b Hb; destruct i0; discriminate|].
    intros l ->. cbn in Ht. congruence.
  - unfold byte_at. rewrite (hd_ptr _ _ _ _ _ _ Hh). pose proof (hd_live _ _ _ _ _ _ Hh) as Hl.
    split.
    + intros i0 b Hb. eapply load_value_at; [eassumption|]. apply (hd_shows _ _ _ _ _ _ Hh).
      subst l0. assumption.
    + intros l ->. cbn in *. eapply load_value_at; [eassumption|]. cbn. subst l0.
      apply (hd_end _ _ _ _ _ _ Hh). rewrite Ht. discriminate.
Qed.

(** Whichever allocations fail, a program that uses its strings properly runs
    without a fault.  Every operation does its work or throws, and one that throws
    leaves all strings as they were. *)
Theorem C71_exceptions : forall p,
  proper W no_strings p ->
  exists w t trace a, y_runs W full start [] p = Done (w, t, trace) /\
    ends W no_strings p trace a /\
    forall i, match a i, w_str w i with
              | Some c, Some s => reads w s c
              | None, None => True
              | _, _ => False
              end.
Proof.
  intros p P. destruct (runs_ok W full p no_strings P start [] (start_related W))
    as (w & t & trace & a & E & En & R).
  exists w, t, trace, a. split; [assumption|]. split; [assumption|]. now apply related_reads.
Qed.

(** Nothing is leaked: the live blocks are those of the live strings, one each. *)
Theorem C71_no_leak : forall p,
  proper W no_strings p ->
  exists w t trace a, y_runs W full start [] p = Done (w, t, trace) /\
    ends W no_strings p trace a /\
    (forall k cs, live (w_mem w) k cs ->
       exists i s, w_str w i = Some s /\ m_ptr s = At k 0 /\
         forall j t, w_str w j = Some t -> m_ptr t = At k 0 -> j = i) /\
    ((forall i, a i = None) -> forall k cs, ~ live (w_mem w) k cs).
Proof.
  intros p P. destruct (runs_ok W full p no_strings P start [] (start_related W))
    as (w & t & trace & a & E & En & R).
  exists w, t, trace, a. split; [assumption|]. split; [assumption|]. split.
  - intros k cs Hl. destruct (rl_owner _ _ _ R _ _ Hl) as (i & s & Hi & Hk).
    exists i, s. split; [assumption|]. split.
    + pose proof (rl_obj _ _ _ R i) as Ho. rewrite Hi in Ho. destruct (a i) as [c|]; [|contradiction].
      destruct Ho as (Hr & _). rewrite Hk in Hr. inversion Hr as [|l0 k0 cs0 Hh].
      apply (hd_ptr _ _ _ _ _ _ Hh).
    + intros j s' Hj Ht. eapply (rl_apart _ _ _ R); [eassumption|eassumption| |eassumption].
      unfold owned. now rewrite Ht.
  - intros Hnone k cs Hl. destruct (rl_owner _ _ _ R _ _ Hl) as (i & s & Hi & _).
    pose proof (rl_obj _ _ _ R i) as Ho. rewrite Hi, Hnone in Ho. contradiction.
Qed.

(** An operation throws iff its latest request for memory has failed; it makes no
    request after a failed one. *)
Theorem C71_throws_iff : forall w t o w' t' thrown,
  y_step W full w t o = Done (w', t', thrown) ->
  exists calls, t' = calls ++ t /\
    (thrown = true -> calls <> []) /\
    forall later c earlier, calls = later ++ c :: earlier ->
      full (c :: earlier ++ t) = match later with [] => thrown | _ => false end.
Proof. intros w t o w' t' x H. eapply step_honest; eassumption. Qed.

(** An operation that does not throw does what it does with enough memory (C42,
    C64). *)
Theorem C71_no_throw_same : forall w t o w' t',
  y_step W full w t (YOp o) = Done (w', t', false) -> sstep W w o = Done w'.
Proof.
  intros w t o w' t' H. cbn [y_step] in H. pose proof (op_gates W full w t o) as G. rewrite H in G.
  apply gates_cases in G. destruct G as [(t1 & E & _)|(a & E1 & E & _)].
  - discriminate.
  - unfold w_ok in E. injection E as -> _. assumption.
Qed.

Theorem C71_logline_same : forall w t i j x y w' t',
  w_str w i = Some x -> w_str w j = Some y ->
  y_step W full w t (YLogline i j) = Done (w', t', false) ->
  exists h' x', ctx_logline W (w_mem w) x y = Done (h', x') /\
    w' = World h' (put (w_str w) i (Some x')).
Proof.
  intros w t i j x y w' t' Hi Hj H. cbn [y_step] in H. unfold var in H. rewrite Hi, Hj in H.
  cbn [bind] in H. unfold y_logline in H. unfold ctx_logline.
  match type of H with context [y_reserve _ _ ?h ?t ?s ?n] =>
    pose proof (reserve_gates W full h t s n) as G1; destruct (y_reserve W full h t s n) as [r1|] end;
    cbn [bind] in H; [|discriminate].
  apply gates_cases in G1. destruct G1 as [(t1 & -> & _)|(a1 & -> & -> & _)];
    cbn [set_fl set_ok bind y_set] in H |- *; [discriminate|].
  match type of H with context [y_add _ _ ?h ?t ?s (AString ?n)] =>
    pose proof (add_gates W full h t s (AString n)) as G2; destruct (y_add W full h t s (AString n)) as [r2|] end;
    cbn [bind] in H; [|discriminate].
  cbn [str_add] in G2. apply gates_cases in G2. destruct G2 as [(t2 & -> & _)|(a2 & -> & -> & _)];
    cbn [set_fl set_ok bind y_set] in H |- *; [discriminate|].
  match type of H with context [y_add _ _ ?h ?t ?s ?n] =>
    pose proof (add_gates W full h t s n) as G3; destruct (y_add W full h t s n) as [r3|] end;
    cbn [bind] in H; [|discriminate].
  cbn [str_add] in G3. apply gates_cases in G3. destruct G3 as [(t3 & -> & _)|((h' & x') & -> & -> & _)];
    cbn [set_fl set_ok bind y_set fst snd] in H |- *; [discriminate|].
  injection H as <- _. eauto.
Qed.

(** An operation of one String that throws has not even changed the memory. *)
Theorem C71_unchanged : forall w t o w' t',
  y_step W full w t (YOp o) = Done (w', t', true) ->
  w_mem w' = w_mem w /\ forall i, w_str w' i = w_str w i.
Proof.
  intros w t o w' t' H. cbn [y_step] in H. pose proof (op_gates W full w t o) as G. rewrite H in G.
  apply gates_cases in G. destruct G as [(t1 & E & _)|(a & E1 & E & _)]; [|discriminate].
  unfold w_fl in E. injection E as -> _. cbn [w_mem w_str]. split; [reflexivity|].
  intros i. unfold put. destruct (Nat.eqb_spec i (target o)) as [->|]; reflexivity.
Qed.

(** The requests are exactly these: a string asks for memory only when it needs
    more than it has; logline asks at most once; y + z asks for two copies of the
    result's storage, or three. *)
Theorem C71_requests : forall p,
  proper W no_strings p ->
  exists w t trace a, y_runs W full start [] p = Done (w, t, trace) /\
    ends W no_strings p trace a /\
    forall o a' w' t', means W a o a' -> y_step W full w t o = Done (w', t', false) ->
      exists calls, t' = calls ++ t /\ asks (w_str w) o calls.
Proof.
  intros p P. destruct (runs_ok W full p no_strings P start [] (start_related W))
    as (w & t & trace & a & E & En & R).
  exists w, t, trace, a. split; [assumption|]. split; [assumption|].
  intros o a' w' t' M H. destruct (step_ok W full a w t o a' R M) as (w1 & t1 & th & E1 & Hx).
  rewrite H in E1. injection E1 as <- <- <-. apply Hx.
Qed.

(** *** Reserved storage *)

Theorem C71_reserve : forall w t i n w' t',
  S n < W -> y_step W full w t (YOp (SReserve i n)) = Done (w', t', false) ->
  exists x, w_str w' i = Some x /\ n < m_capacity x.
Proof.
  intros w t i n w' t' Hn H. apply C71_no_throw_same in H. cbn [sstep] in H.
  destruct (var w i) as [x|]; cbn [bind] in H; [|discriminate].
  unfold str_reserve in H. rewrite wadd_small in H by lia.
  destruct (validate (w_mem w) x); cbn [bind] in H; [|discriminate].
  destruct (Nat.ltb_spec (m_capacity x) (n + 1)) as [Hc|Hc].
  - destruct (buffer_make W (w_mem w) (n + 1) 1) as [[h1 b]|] eqn:Eb; cbn [bind fst snd] in H; [|discriminate].
    assert (m_capacity b = n + 1) as Hb.
    { unfold buffer_make in Eb. destruct (if 0 <? wmul W (n + 1) 1 then _ else _) as [h2 p].
      cbn [assert_ Nat.ltb Nat.leb bind] in Eb. injection Eb as _ <-. reflexivity. }
    destruct (buffer_copy W h1 b _ _) as [h2|]; cbn [bind] in H; [|discriminate].
    destruct (store h2 _ _ _) as [h3|]; cbn [bind] in H; [|discriminate].
    unfold buffer_resize in H. destruct (assert_ _); cbn [bind buffer_assign_move] in H; [|discriminate].
    destruct (buffer_destroy false h3 x) as [h4|]; cbn [bind fst snd] in H; [|discriminate].
    destruct (validate h4 _); cbn [bind] in H; [|discriminate].
    injection H as <-. cbn [set1 w_str]. unfold put. rewrite Nat.eqb_refl.
    eexists. split; [reflexivity|]. cbn. lia.
  - cbn [bind fst snd] in H. destruct (validate (w_mem w) x); cbn [bind] in H; [|discriminate].
    injection H as <-. cbn [set1 w_str]. unfold put. rewrite Nat.eqb_refl.
    exists x. split; [reflexivity|]. cbn. lia.
Qed.

(** The program that appends [texts] to the variable [i]. *)
Fixpoint appending (i : nat) (texts : list bytes) : yprog :=
  match texts with
  | [] => YEnd
  | u :: r => YDo (YOp (SAppend i u (length u))) (fun _ => appending i r)
  end.

Lemma appending_ok : forall full' texts a w t i x c,
  related W a w -> w_str w i = Some x -> a i = Some c ->
  m_capacity x < W ->
  length (chars c) + length (concat texts) < m_capacity x ->
  exists w' a', y_runs W full' w t (appending i texts) = Done (w', t, repeat false (length texts)) /\
    related W a' w' /\
    a' i = Some (match texts with [] => c | _ => Chars (chars c ++ known (concat texts)) end).
Proof.
  intros full' texts. induction texts as [|u texts IH]; intros a w t i x c R Wi Ai Cw L.
  - exists w, a. split; [reflexivity|]. auto.
  - cbn [appending y_runs concat length repeat] in *. rewrite app_length in L.
    destruct (related_some _ _ _ _ _ R Ai) as (x' & Wi' & Hr & Ht).
    rewrite Wi in Wi'. injection Wi' as <-.
    assert (smeans W a (SAppend i u (length u))
              (upd a i (Some (Chars (chars c ++ known (firstn (length u) u)))))) as M.
    { constructor; [assumption|lia|lia]. }
    rewrite firstn_all in M.
    destruct (step_ok W full' a w t _ _ R (Y_op _ _ _ _ M)) as (w1 & t1 & th & E1 & Hx).
    assert (exists h' s', y_append W full' (w_mem w) t x (Ext u) (length u) = Done (h', t, s', false) /\
              m_capacity s' = m_capacity x) as (h' & s' & E & Cs).
    { destruct (append_ok W (w_mem w) x (chars c) (owned x) (Ext u) (length u) (map Some u) (known u) Hr)
        as (h' & s' & k & E & _ & _ & _ & _ & C').
      - split; [lia|]. now rewrite firstn_all.
      - apply shows_refl.
      - apply known_length.
      - lia.
      - rewrite (proj2 (Nat.ltb_lt _ _)) in C' by lia.
        pose proof (append_gates W full' (w_mem w) t x (Ext u) (length u)) as G.
        rewrite E, (rep_length _ _ _ _ _ Hr), wadd_small in G by lia.
        unfold room_ask in G. rewrite wadd_small in G by lia.
        rewrite (proj2 (Nat.ltb_ge _ _)) in G by lia. cbn [gates quiet bind] in G.
        exists h', s'. auto. }
    cbn [y_step y_op] in E1 |- *. unfold var in E1 |- *. rewrite Wi in E1 |- *. cbn [bind] in E1 |- *.
    rewrite E in E1 |- *. cbn [bind y_set] in E1 |- *. injection E1 as <- <- <-.
    destruct Hx as (R1 & _).
    destruct (IH _ _ t i s' (Chars (chars c ++ known u)) R1) as (w2 & a2 & E2 & R2 & A2).
    + cbn [w_str]. unfold put. now rewrite Nat.eqb_refl.
    + unfold upd. now rewrite Nat.eqb_refl.
    + lia.
    + cbn [chars]. rewrite app_length, known_length. lia.
    + rewrite E2. cbn [bind]. exists w2, a2. split; [reflexivity|]. split; [assumption|].
      rewrite A2. cbn [chars]. unfold known. rewrite map_app, app_assoc. destruct texts; [|reflexivity].
      cbn [concat map]. now rewrite app_nil_r.
Qed.

(** Within its capacity a string never throws, whatever allocation does then
    ([full']): it asks for nothing. *)
Theorem C71_reserved : forall p,
  proper W no_strings p ->
  exists w t trace a, y_runs W full start [] p = Done (w, t, trace) /\
    ends W no_strings p trace a /\
    forall full' i x c u texts, w_str w i = Some x -> a i = Some c ->
      length (chars c) + length (concat (u :: texts)) < m_capacity x ->
      exists w' x', y_runs W full' w t (appending i (u :: texts))
                    = Done (w', t, repeat false (S (length texts))) /\
        w_str w' i = Some x' /\ reads w' x' (Chars (chars c ++ known (concat (u :: texts)))).
Proof.
  intros p P. destruct (runs_ok W full p no_strings P start [] (start_related W))
    as (w & t & trace & a & E & En & R).
  exists w, t, trace, a. split; [assumption|]. split; [assumption|].
  intros full' i x c u texts Wi Ai L.
  assert (m_capacity x < W) as Cw.
  { destruct (related_some _ _ _ _ _ R Ai) as (x0 & Wi' & Hr & _). rewrite Wi in Wi'. injection Wi' as <-.
    inversion Hr as [H1 H2 H3 H4|l0 k cs Hh]; [lia|].
    rewrite (hd_cap _ _ _ _ _ _ Hh). apply (hd_fits _ _ _ _ _ _ Hh). }
  destruct (appending_ok full' (u :: texts) a w t i x c R Wi Ai Cw L) as (w' & a' & E' & R' & A').
  destruct (related_some _ _ _ _ _ R' A') as (x' & Wx & _). exists w', x'.
  split; [exact E'|]. split; [assumption|].
  pose proof (related_reads _ _ R' i) as Hi. now rewrite A', Wx in Hi.
Qed.

(** *** Formatted output *)

Variables (imax : nat) (strict : bool).

(** What a statement that adds [u] to the output [out] may do: everything, as
    C64 says; or throw, and then neither the output nor any other memory has
    changed and nothing is left over. *)
Definition all_or_nothing (h : mem) (t : list nat) (out : str) (o : option nat) (l u : bytes)
  (r : outcome (mem * list nat * str * bool)) : Prop :=
  exists h' t' out' thrown, r = Done (h', t', out', thrown) /\
    (exists calls, t' = calls ++ t /\ (thrown = true -> calls <> []) /\
       forall later c earlier, calls = later ++ c :: earlier ->
         full (c :: earlier ++ t) = match later with [] => thrown | _ => false end) /\
    if thrown : bool then out' = out /\ forall b cs, live h' b cs <-> live h b cs
    else appends h o (Done (h', out')) (l ++ u).

Lemma evolves_none : forall (h h' : mem), evolves h None h' None ->
  forall b cs, live h' b cs <-> live h b cs.
Proof.
  intros h h' (A & B) b cs. split; intros H.
  - destruct (A _ _ H) as [|(_ & H')]; [discriminate|assumption].
  - apply B; [assumption|discriminate].
Qed.

Theorem C71_logf : forall h t out l o fmt f args a u,
  rep W h out (known l) o -> c_text h fmt f -> given imax h args a -> prints f a u ->
  fits W imax strict (length u) -> S (length l + length u) < W ->
  all_or_nothing h t out o l u (y_logf W imax strict full h t out fmt args).
Proof.
  intros h t out l o fmt f args a u Ro Hf Hg Hp F Hfit. pose proof F as (F1 & F2 & F3).
  destruct (logf_cases W imax strict full h t out (known l) o fmt f args a u Ro Hf Hg Hp F1 F2 F3)
    as (h' & t' & out' & th & E & Ht & Hx); [now rewrite known_length|].
  exists h', t', out', th. split; [assumption|]. split; [exact Ht|].
  destruct th.
  - destruct Hx as (-> & V). split; [reflexivity|]. now apply evolves_none.
  - rewrite <- Hx. eapply C64_logf; eassumption.
Qed.

Theorem C71_loglinef : forall h t out l o fmt f args a u,
  rep W h out (known l) o -> c_text h fmt f -> given imax h args a -> prints f a u ->
  fits W imax strict (length u) -> S (S (length l + length u)) < W ->
  all_or_nothing h t out o l (u ++ [ascii_of_nat 10]) (y_loglinef W imax strict full h t out fmt args).
Proof.
  intros h t out l o fmt f args a u Ro Hf Hg Hp F Hfit. pose proof F as (F1 & F2 & F3).
  destruct (loglinef_cases W imax strict full h t out (known l) o fmt f args a u Ro Hf Hg Hp F1 F2 F3)
    as (h' & t' & out' & th & E & Ht & Hx); [now rewrite known_length|].
  exists h', t', out', th. split; [assumption|]. split; [exact Ht|].
  destruct th.
  - destruct Hx as (-> & V). split; [reflexivity|]. now apply evolves_none.
  - rewrite <- Hx. eapply C64_loglinef; eassumption.
Qed.

(** The texts of messages: a String with the text (C62), or an exception and
    nothing left over. *)
Theorem C71_sprintf : forall h t fmt f args a u,
  c_text h fmt f -> given imax h args a -> prints f a u -> fits W imax strict (length u) ->
  exists h' t' o, y_vsprintf W imax strict full h t fmt args = Done (h', t', o) /\
    match o with
    | None => (forall b cs, live h' b cs <-> live h b cs) /\ exists n r, t' = n :: r /\ full t' = true
    | Some s => vsprintf W imax strict h fmt args = Done (h', s) /\ text_in h' s u
    end.
Proof.
  intros h t fmt f args a u Hf Hg Hp (F1 & F2 & F3).
  destruct (vsprintf_cases W imax strict full h t fmt f args a u Hf Hg Hp F1 F2 F3)
    as (h' & t' & o & E & Hx).
  exists h', t', o. split; [assumption|]. destruct o as [s|].
  - destruct Hx as (Ev & _). split; [assumption|].
    destruct (vsprintf_ok W imax strict h fmt f args a u Hf Hg Hp F1 F2 F3)
      as (h1 & s1 & k & Ef & Rs & _ & Z). rewrite Ev in Ef. injection Ef as <- <-.
    eapply rep_text; eassumption.
  - destruct Hx as (V & (calls & -> & Hn & Hc)). split; [now apply evolves_none|].
    destruct calls as [|n calls]; [now specialize (Hn eq_refl)|].
    exists n, (calls ++ t). split; [reflexivity|]. apply (Hc [] n calls eq_refl).
Qed.

End C71.

(** ** Examples *)

(** A program that builds "ab" ++ "cd" and logs it; [full] makes the n-th request
    fail. *)
Definition nth_fails (n : nat) (t : list nat) : bool := length t =? n.

Definition log_prog : yprog :=
  YDo (YOp (SMakeC 0 (lit "ab" ++ [NUL]))) (fun thrown => if thrown then YEnd else
  YDo (YOp (SMakeC 1 (lit "cd" ++ [NUL]))) (fun thrown => if thrown then YEnd else
  YDo (YPlus 2 0 (RString 1)) (fun thrown => if thrown then YDo (YLogline 0 1) (fun _ => YEnd) else
  YDo (YLogline 0 2) (fun _ => YEnd)))).

Lemma c_string_lit (l : bytes) : ~ In NUL l -> c_string (l ++ [NUL]) l.
Proof. intros H. exists []. auto. Qed.

Lemma log_prog_proper : proper 64 no_strings log_prog.
Proof.
  eapply P_do.
  - constructor. constructor; [reflexivity|apply c_string_lit; cbn; intuition discriminate|cbn; lia].
  - eapply P_do.
    + constructor. constructor; [reflexivity|apply c_string_lit; cbn; intuition discriminate|cbn; lia].
    + eapply P_do.
      * eapply Y_plus; [reflexivity|reflexivity|discriminate| |].
        -- eapply O_string; [reflexivity|discriminate].
        -- cbn. lia.
      * eapply P_do; [|constructor|intros; constructor].
        eapply Y_logline; [discriminate|reflexivity|reflexivity|discriminate|cbn; lia].
      * intros _. eapply P_do; [|constructor|intros; constructor].
        eapply Y_logline; [discriminate|reflexivity|reflexivity|discriminate|cbn; lia].
    + intros _. constructor.
  - intros _. constructor.
Qed.

Definition outcome_of (n : nat) : option (list bool * list nat * bytes) :=
  match y_runs 64 (nth_fails n) start [] log_prog with
  | Done (w, t, trace) =>
      match w_str w 0 with
      | Some s => match (v <- str_view s ;; view_bytes (w_mem w) v) with
                  | Done l => Some (trace, rev t, l) | Fault _ => None end
      | None => Some (trace, rev t, [])
      end
  | Fault _ => None
  end.

(** Request by request: the two literals, the copy of "ab", the longer one, the
    result of +, the room for the line. *)
Example C71_ex_all : outcome_of 0 =
  Some ([false; false; false; false], [3; 3; 3; 5; 5; 8], lit "ababcd" ++ [ascii_of_nat 10]).
Proof. vm_compute. reflexivity. Qed.
Example C71_ex_plus_fails : outcome_of 4 =
  Some ([false; false; true; false], [3; 3; 3; 5; 6], lit "abcd" ++ [ascii_of_nat 10]).
Proof. vm_compute. reflexivity. Qed.
Example C71_ex_line_fails : outcome_of 6 =
  Some ([false; false; false; true], [3; 3; 3; 5; 5; 8], lit "ab").
Proof. vm_compute. reflexivity. Qed.

(** loglinef("%d", 42): the empty String, the text, the output. *)
Definition logged (n : nat) : option (bool * list nat * bytes) :=
  match (hs <- str_make_c 5000 empty_heap (Ext [NUL]) ;;
         y_loglinef 5000 1000 true (nth_fails n) (fst hs) [] (snd hs) (Ext (lit "%d" ++ [NUL])) [VInt CInt 42%Z]) with
  | Done (h, t, out, thrown) =>
      match (v <- str_view out ;; view_bytes h v) with
      | Done l => Some (thrown, rev t, l) | Fault _ => None end
  | Fault _ => None
  end.
Example C71_ex_loglinef :
  logged 0 = Some (false, [1; 3; 4], lit "42" ++ [ascii_of_nat 10]) /\
  logged 1 = Some (true, [1], []) /\ logged 2 = Some (true, [1; 3], []) /\
  logged 3 = Some (true, [1; 3; 4], []).
Proof. repeat split; vm_compute; reflexivity. Qed.

(** * Assumptions *)
Print Assumptions C71_exceptions.
Print Assumptions C71_no_leak.
Print Assumptions C71_throws_iff.
Print Assumptions C71_no_throw_same.
Print Assumptions C71_logline_same.
Print Assumptions C71_unchanged.
Print Assumptions C71_requests.
Print Assumptions C71_reserve.
Print Assumptions C71_reserved.
Print Assumptions C71_logf.
Print Assumptions C71_loglinef.
Print Assumptions C71_sprintf.
