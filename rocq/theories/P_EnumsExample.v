(** C93: the commands of examples/enums. *)
From Coq Require Import Ascii String NArith ZArith Bool PeanoNat Lia List.
Import ListNotations.
From Verif Require Import Util Base LexerSpec StringConv StringConvSpec StringConvProofs SerializerSpec Serializer
  SerializerProofs Lexer LexerMeta LexerProofs LexerMore P_Lexer P_StringConv P_Serializer UMap Exec ExecSpec ExecProofs P_Exec
  Enums EnumsSpec EnumsProofs EnumsRead EnumsFlags P_Enums NamedExample NamedExampleSpec NamedExampleProofs
  ExampleSession ExampleSpec ExampleProofs ExampleMore EnumsExample EnumsExampleSpec.

Local Notation length := List.length.

(** ** Three names *)

Definition three (names : list bytes) : Prop := names = abilities \/ names = modes \/ names = kinds.

Lemma counting_ok p n t names : no_nul n -> three names -> declarable p (counting n t names).
Proof.
  intros N H.
  assert (K : forall d, declarable p (Enumeration [] (UInt t) true d) -> declarable p (Enumeration n (UInt t) true d)).
  { intros d (_ & A & B). split; [exact N|]. split; [exact A|exact B]. }
  destruct H as [->|[->| ->]]; apply K, declarable_b_ok; destruct p as [[|] [|]], t; vm_compute; reflexivity.
Qed.

Lemma three_names names : three names -> exists a b c, names = [a; b; c].
Proof. intros [->|[->| ->]]; now eexists _, _, _. Qed.

Lemma counting_first n t a b c v m : first_name (counting n t [a; b; c]) v m <->
  v = 0%Z /\ m = a \/ v = 1%Z /\ m = b \/ v = 2%Z /\ m = c.
Proof.
  split.
  - intros F. apply first_name_In in F. cbn in F. destruct F as [F|[F|[F|[]]]]; injection F as <- <-; auto.
  - intros [[-> ->]|[[-> ->]|[-> ->]]].
    + exists [], [(b, 1%Z); (c, 2%Z)]. split; [reflexivity|intros ? []].
    + exists [(a, 0%Z)], [(c, 2%Z)]. split; [reflexivity|]. intros ? [[= _ E]|[]].
    + exists [(a, 0%Z); (b, 1%Z)], []. split; [reflexivity|]. intros ? [[= _ E]|[[= _ E]|[]]].
Qed.

Lemma shown_det names v t t' : shown names v t -> shown names v t' -> t = t'.
Proof.
  intros [[A B]|[A ->]] [[A' B']|[A' ->]]; [congruence| | |reflexivity].
  - exfalso. assert (X : nth_error names (Z.to_nat v) <> None) by congruence. apply nth_error_Some in X. lia.
  - exfalso. assert (X : nth_error names (Z.to_nat v) <> None) by congruence. apply nth_error_Some in X. lia.
Qed.

Lemma name_shown p n t names v : no_nul n -> three names -> in_range p t v ->
  shown names v (enum_name_text p (counting n t names) v).
Proof.
  intros N H R. set (e := counting n t names). assert (De := counting_ok p n t names N H : declarable p e).
  assert (Co : values_compile p e false = true).
  { subst e. destruct H as [->|[->| ->]]; destruct p as [[|] [|]], t; reflexivity. }
  destruct (three_names names H) as (a & b & c & En).
  assert (Fn : forall w m, first_name e w m <-> w = 0%Z /\ m = a \/ w = 1%Z /\ m = b \/ w = 2%Z /\ m = c)
    by (intros; subst e; rewrite En; apply counting_first).
  assert (Vi : forall w m, first_name e w m -> visible e w m).
  { intros w m F. split; [exact F|]. apply Fn in F. lia. }
  destruct (C75_print_from_zero p e v a De Co) as (u & U).
  { apply Vi, Fn. auto. }
  { intros w m [F _]. apply Fn in F. lia. }
  { exact R. }
  assert (Q := U). unfold toString in Q. unfold enum_name_text. rewrite Q.
  apply (C75_print_iff p e v u De Co R) in U. destruct U as (_ & [[V _]|(No & ->)]).
  - left. apply Fn in V. rewrite En. destruct V as [[-> ->]|[[-> ->]|[-> ->]]]; (split; [lia|reflexivity]).
  - right. split; [|reflexivity]. rewrite En. cbn [length].
    assert (D : (v < 0 \/ 3 <= v \/ v = 0 \/ v = 1 \/ v = 2)%Z) by lia.
    destruct D as [D|[D|[->|[->| ->]]]]; [now left|right; lia|exfalso; apply No..];
      [exists a|exists b|exists c]; apply Vi, Fn; auto.
Qed.

Section Example.
Variables (p : platform) (nm : naming) (ability_name reset_name type_name : bytes) (under : ctype).
Variables sg catching : bool.
Variable d : nat.
Hypothesis Na : no_nul ability_name.
Hypothesis Nr : no_nul reset_name.
Hypothesis Nt : no_nul type_name.

Local Notation code := (code p nm ability_name reset_name type_name under).
Local Notation table := (table p ability_name reset_name type_name under).
Local Notation acts := (acts p ability_name reset_name type_name under).
Local Notation good := (proper p under).
Local Notation world_of := (fun z : scene => World (ability z) (mode z) (kind_ z)).
Local Notation serves := (serves sg commands good world_of).
Local Notation exec := (exec_input code sg catching d).
Local Notation EA := (counting ability_name CInt abilities).
Local Notation ER := (counting reset_name under modes).
Local Notation ET := (counting type_name CInt kinds).

Lemma three_a : three abilities. Proof. now left. Qed.
Lemma three_m : three modes. Proof. right. now left. Qed.
Lemma three_k : three kinds. Proof. right. now right. Qed.

Lemma ia : implements (enum_serializer p nm (ability_enum ability_name)) (enum_kind p EA).
Proof. exact (enum_implements p nm EA (counting_ok p _ _ _ Na three_a) eq_refl). Qed.
Lemma ir : implements (reset_ser p nm reset_name under) (enum_kind p ER).
Proof. exact (enum_implements p nm ER (counting_ok p _ _ _ Nr three_m) eq_refl). Qed.
Lemma it : implements (enum_serializer p nm (type_enum type_name)) (enum_kind p ET).
Proof. exact (enum_implements p nm ET (counting_ok p _ _ _ Nt three_k) eq_refl). Qed.

Lemma agreed : Forall2 (agree code) commands table.
Proof.
  assert (A := implements_fits _ _ ia). assert (B := implements_fits _ _ ir). assert (C := implements_fits _ _ it).
  repeat apply Forall2_cons; try apply Forall2_nil; (split; [reflexivity|]); (split; [discriminate|]);
    (split; [cbn; repeat constructor; cbn; intuition discriminate|]); cbn [snd];
    repeat first [assumption|apply Forall2_cons|apply Forall2_nil].
Qed.

Lemma kind_range n t names v x : no_nul n -> three names -> denotes_value (enum_kind p (counting n t names)) v x -> in_range p t x.
Proof. intros N H (s & _ & W). exact (read_as_range p _ (counting_ok p n t names N H) s x W). Qed.

(** ** The commands *)

Local Notation taken := (taken code).
Lemma only_one (f : fn) : taken [f] f.
Proof. exists [], []. split; [reflexivity|intros ? []]. Qed.
Lemma the_first (f g : fn) : taken [f; g] f.
Proof. exists [], [g]. split; [reflexivity|intros ? []]. Qed.
Lemma the_second (f g : fn) : length (f_params (code f)) <> length (f_params (code g)) -> taken [f; g] g.
Proof. intros H. exists [f], []. split; [reflexivity|]. now intros ? [<-|[]]. Qed.

Ltac acting fs f vs scn out r txt :=
  match goal with R : serves ?sc0 ?s, nd : list (bytes * list bytes) |- exists inp s', exec_input _ _ _ _ _ (Input ?n ?pos _) = _ /\ _ =>
    apply (run_acts code sg catching d commands good world_of sc0 s n fs f pos nd vs scn [] out r txt R);
      try discriminate; [cbn; tauto|first [apply only_one|apply the_first|apply the_second; discriminate]|..]
  end.
Ltac steps := intros sid _; cbn [EnumsExample.code variable_get variable_set setAbility getAbility getResetMode set_type f_body fst snd run_prog s_world set_world
  w_ability w_reset w_type ability mode kind_].

Lemma exec_acts sc s name pos nd sc' es ret out : serves sc s -> acts sc name pos nd sc' es ret out ->
  exists inp s', exec s (Input name pos nd) = Done (s', inl (Result inp es ret out)) /\ serves sc' s'.
Proof.
  intros R A. assert (Hw := proj1 (proj2 (proj2 R))). assert (G := proj2 (proj2 (proj2 R))). cbn beta in Hw, G.
  assert (Kp : set_world s (world_of sc) = s) by (rewrite <- Hw; now destruct s).
  destruct G as (Ga & Gm & Gk).
  destruct A as [nd v w x y V W|nd t T|nd t T|nd t T|nd v x t V T].
  - acting [FSetAbility] FSetAbility (x, (y, tt)) (Scene x y (kind_ sc)) (@nil byte) tt (@None bytes); [| | |reflexivity].
    + apply converts_cons; [now apply (proj1 ia)|]. apply converts_cons; [now apply (proj1 ir)|constructor].
    + split; [exact (kind_range _ _ _ _ _ Na three_a V)|]. split; [exact (kind_range _ _ _ _ _ Nr three_m W)|exact Gk].
    + steps. rewrite Hw. reflexivity.
  - assert (X := name_shown p ability_name CInt abilities _ Na three_a Ga). rewrite (shown_det _ _ _ _ T X).
    acting [FGetAbility] FGetAbility tt sc (@nil byte) (ability sc) (Some (enum_name_text p EA (ability sc))); [apply converts_nil|exact (conj Ga (conj Gm Gk))| |reflexivity].
    steps. rewrite Hw. cbn [w_ability]. now rewrite Kp.
  - assert (X := name_shown p reset_name under modes _ Nr three_m Gm). rewrite (shown_det _ _ _ _ T X).
    acting [FGetReset] FGetReset tt sc (@nil byte) (mode sc) (Some (enum_name_text p ER (mode sc))); [apply converts_nil|exact (conj Ga (conj Gm Gk))| |reflexivity].
    steps. rewrite Hw. cbn [w_reset]. now rewrite Kp.
  - assert (X := name_shown p type_name CInt kinds _ Nt three_k Gk). rewrite (shown_det _ _ _ _ T X).
    acting [FTypeGet; FTypeSet] FTypeGet tt sc (@nil byte) (kind_ sc) (Some (enum_name_text p ET (kind_ sc))); [apply converts_nil|exact (conj Ga (conj Gm Gk))| |reflexivity].
    steps. rewrite Hw. cbn [w_type]. now rewrite Kp.
  - assert (Gx := kind_range _ _ _ _ _ Nt three_k V). assert (X := name_shown p type_name CInt kinds _ Nt three_k Gx). rewrite (shown_det _ _ _ _ T X).
    acting [FTypeGet; FTypeSet] FTypeSet (x, tt) (Scene (ability sc) (mode sc) x) (@nil byte) x (Some (enum_name_text p ET x)); [|exact (conj Ga (conj Gm Gx))| |reflexivity].
    + apply converts_cons; [now apply (proj1 it)|constructor].
    + steps. rewrite Hw. reflexivity.
Qed.

Lemma accepted_nil pos : accepted [] pos -> pos = [].
Proof. intros H. now inversion H. Qed.
Lemma accepted_cons P Ps pos : accepted (P :: Ps) pos -> exists v x vs, pos = v :: vs /\ p_ok P v x /\ accepted Ps vs.
Proof. intros H. inversion H as [|? v ? vs (x & O) H']; subst. now exists v, x, vs. Qed.

Lemma acts_total sc name pos nd overloads Ps : good sc -> In (name, overloads) table -> In Ps overloads -> accepted Ps pos ->
  exists sc' es ret out, acts sc name pos nd sc' es ret out.
Proof.
  intros (Ga & Gm & Gk) J K A. cbn in J. repeat (destruct J as [J|J]; [injection J as <- <-|]); [..|destruct J];
    cbn in K; repeat (destruct K as [<-|K]); try destruct K;
    repeat (let v := fresh "v" in let x := fresh "x" in let V := fresh "V" in
            apply accepted_cons in A; destruct A as (v & x & ? & -> & V & A); cbn [p_type p_ok single] in x, V); apply accepted_nil in A; subst.
  - eexists _, _, _, _. eapply acts_set; eassumption.
  - eexists _, _, _, _. apply acts_ability. exact (name_shown p ability_name CInt abilities _ Na three_a Ga).
  - eexists _, _, _, _. apply acts_mode. exact (name_shown p reset_name under modes _ Nr three_m Gm).
  - eexists _, _, _, _. apply acts_kind. exact (name_shown p type_name CInt kinds _ Nt three_k Gk).
  - eexists _, _, _, _. eapply acts_set_kind; [exact V|].
    exact (name_shown p type_name CInt kinds _ Nt three_k (kind_range _ _ _ _ _ Nt three_k V)).
Qed.

Lemma is_implemented : implemented code (fun _ => None) sg catching d commands table acts goes_wrong good world_of.
Proof.
  split.
  - reflexivity.
  - exact agreed.
  - cbn. repeat constructor; cbn; intuition discriminate.
  - intros. now apply exec_acts with (sc := sc).
  - intros. contradiction.
  - intros. left. now apply acts_total with (overloads := overloads) (Ps := Ps).
Qed.

Lemma first_good : good first_scene.
Proof. repeat split; cbn; destruct p as [[|] [|]], under; vm_compute; congruence. Qed.

(** ** Undefined conversions *)

Local Notation C := (cfg_classes sg default_cfg).
Local Notation undefined := (undefined p under C).
Local Notation R0 := (reset_enum reset_name under).

Lemma reset_ok : declarable p R0.
Proof. destruct (counting_ok p reset_name under modes Nr three_m) as (A & B & D). exact (conj A (conj B D)). Qed.
Lemma reset_castable z : castable R0 z <-> (0 <= z <= 3)%Z.
Proof.
  unfold castable. rewrite possible_iff. replace (enum_limits R0) with (0%Z, 3%Z) by reflexivity. cbn [fst snd e_fixed].
  split; [intros [H|H]; [discriminate H|exact H]|now right].
Qed.
Lemma mode_faults w : (exists f, fromString p nm R0 w = Fault f) <->
  exists s z, w = [s] /\ number p (UInt under) s z /\ ~ (0 <= z <= 3)%Z.
Proof.
  split.
  - intros (f & F). destruct w as [|s [|? ?]]; try discriminate F.
    assert (X : exists f, fromString p nm R0 [s] = Fault f) by now exists f.
    apply (C75_read_fault_iff p nm R0 s reset_ok) in X. destruct X as (x & Ra & Nc). rewrite reset_castable in Nc.
    exists s, x. split; [reflexivity|]. split; [|exact Nc]. destruct Ra as [Ra|(_ & (m & [V _] & _) & _)]; [exact Ra|].
    exfalso. apply Nc. apply first_name_In in V. cbn in V. destruct V as [V|[V|[V|[]]]]; injection V as _ <-; lia.
  - intros (s & z & -> & Nu & Nz). apply (C75_read_fault_iff p nm R0 s reset_ok). exists z. split; [now left|now rewrite reset_castable].
Qed.

Lemma conversions_fault line i : parse_input sg default_cfg line = Done i ->
  ((exists f, conversions p nm reset_name under i = Fault f) <-> undefined line).
Proof.
  intros P. split.
  - intros (f & F). destruct i as [i|e]; [|discriminate F]. unfold conversions in F.
    destruct (bytes_eqb_spec (i_name i) (lit "abilities.set_ability")) as [E|E]; [|discriminate F].
    destruct (i_args i) as [|v [|w [|? ?]]] eqn:Ea; try discriminate F.
    destruct (fromString p nm R0 w) as [r|g] eqn:Fw; [discriminate F|].
    destruct (proj1 (mode_faults w) (ex_intro _ g Fw)) as (s & z & -> & Nu & Nz).
    exists v, s, z, (i_named i). split; [|now split]. apply C07_value_iff_wellformed. rewrite P. f_equal. f_equal.
    destruct i as [n a k]. cbn in *. now subst.
  - intros (v & s & z & nd & K & Nu & Nz). apply C07_value_iff_wellformed in K. rewrite P in K. injection K as ->.
    unfold conversions. cbn [i_name i_args]. rewrite bytes_eqb_refl.
    destruct (proj2 (mode_faults [s])) as (f & F); [now exists s, z|]. exists f. now rewrite F.
Qed.

Local Notation session := (session code (fun _ => None) sg catching d).
Local Notation run := (EnumsExample.run p nm ability_name reset_name type_name under sg catching d).
Local Notation dialogue := (dialogue table acts C).

Lemma run_dialogue sc lines sc' rs : dialogue sc lines sc' rs -> forall s, Forall no_nul lines -> serves sc s ->
  Forall (fun l => ~ undefined l) lines ->
  exists s' xs, run s lines = Done (s', xs) /\ serves sc' s' /\ map reply xs = rs.
Proof.
  induction 1 as [sc|sc line lines sc1 es ret out sc2 rs A D IH]; intros s N R U.
  - exists s, []. repeat split; apply R.
  - inversion N as [|? ? N1 N2]; subst. inversion U as [|? ? U1 U2]; subst.
    assert (D1 : dialogue sc [line] sc1 [(es, ret, out)]) by (econstructor; [exact A|constructor]).
    destruct (session_dialogue _ _ sg catching d _ _ _ _ _ _ is_implemented _ _ _ _ D1 s (Forall_cons _ N1 (Forall_nil _)) R) as (s1 & xs1 & E1 & R1 & M1).
    destruct (IH s1 N2 R1 U2) as (s' & xs & E & R' & M).
    assert (P : exists i, parse_input sg default_cfg line = Done i).
    { destruct A as [e K|name pos nd sc1 es ret out K X].
      - exists (Error (message e)). apply C07_error_iff_malformed. eauto.
      - apply C07_value_iff_wellformed in K. eauto. }
    destruct P as (i & P). exists s', (xs1 ++ xs). split; [|split; [exact R'|rewrite map_app, M1, M; reflexivity]].
    cbn [EnumsExample.run]. rewrite P. cbn [bind].
    destruct (conversions p nm reset_name under i) as [[]|f] eqn:Cv; [|elim U1; apply (conversions_fault line i P); eauto].
    cbn [bind]. rewrite E1. cbn [bind fst snd]. now rewrite E.
Qed.

Lemma line_cases sc s line : serves sc s -> no_nul line ->
  ill_command C line \/ undefined line \/ ~ undefined line /\ exists sc' rs, dialogue sc [line] sc' rs.
Proof.
  intros R N. destruct (parse_input sg default_cfg line) as [i|f] eqn:P.
  - right. assert (X := conversions_fault line i P). destruct (conversions p nm reset_name under i) as [u|f].
    + right. split; [intros U; apply X in U; destruct U; discriminate|].
      destruct (ExampleProofs.total _ _ sg catching d _ _ _ _ _ _ is_implemented [line] sc s R (Forall_cons _ N (Forall_nil _))) as [H|[(f & H)|H]];
        [exact H| |].
      * exfalso. inversion H as [? ? ? ? (n & q & k & _ & [])|? ? ? ? ? ? ? ? _ D]; subst. inversion D.
      * exfalso. destruct H as (a & l & b & sc' & rs & E & _ & Il).
        assert (l = line) by (destruct a as [|? a]; [now injection E|]; injection E as _ E; destruct a; discriminate E). subst l.
        apply parse_input_fault_iff in Il. destruct Il as (f & Il). rewrite P in Il. discriminate Il.
    + left. apply X. now exists f.
  - left. apply parse_input_fault_iff. now exists f.
Qed.

Lemma run_fault lines : forall sc s, serves sc s -> Forall no_nul lines ->
  ((exists f, run s lines = Fault f) <-> Exists (fun l => ill_command C l \/ undefined l) lines).
Proof.
  induction lines as [|line lines IH]; intros sc s R N.
  - split; [intros (f & F); discriminate F|intros H; inversion H].
  - inversion N as [|? ? N1 N2]; subst. destruct (line_cases sc s line R N1) as [Il|[U|[U (sc1 & rs1 & D)]]].
    + split; [intros _; constructor; now left|]. intros _. apply parse_input_fault_iff in Il. destruct Il as (f & Il).
      exists f. cbn [EnumsExample.run]. now rewrite Il.
    + split; [intros _; constructor; now right|]. intros _. cbn [EnumsExample.run].
      destruct (parse_input sg default_cfg line) as [i|f] eqn:P; [|now exists f]. cbn [bind].
      apply (conversions_fault line i P) in U. destruct U as (f & U). exists f. now rewrite U.
    + destruct (run_dialogue _ _ _ _ D s (Forall_cons _ N1 (Forall_nil _)) R (Forall_cons (P := fun l => ~ undefined l) line U (Forall_nil _))) as (s1 & xs1 & E1 & R1 & _).
      cbn [EnumsExample.run] in E1 |- *. destruct (parse_input sg default_cfg line) as [i|f] eqn:P; [|discriminate E1]. cbn [bind] in E1 |- *.
      destruct (conversions p nm reset_name under i) as [u|f]; [|discriminate E1]. cbn [bind] in E1 |- *.
      destruct (ExampleSession.session code (fun _ => None) sg catching d s [line]) as [[s2 x2]|f]; [|discriminate E1]. cbn [bind fst snd] in E1 |- *.
      injection E1 as -> _. specialize (IH sc1 s1 R1 N2). split.
      * intros (f & F). apply Exists_cons_tl, IH. destruct (run s1 lines) as [q|g] eqn:Q; [discriminate F|now exists g].
      * intros H. inversion H as [? ? [Il|U']|? ? H']; subst.
        -- apply parse_input_fault_iff in Il. destruct Il as (f & Il). rewrite P in Il. discriminate Il.
        -- elim (U U').
        -- apply IH in H'. destruct H' as (f & F). exists f. now rewrite F.
Qed.
End Example.

(** * C93 *)
Section Theorems.
(** The platform, the names of integer types and of the enumerations, the underlying type of
    ResetMode, whether char is signed for the lexer, whether exceptions are caught, and how deep
    commands may nest. *)
Variables (p : platform) (nm : naming) (ability_name reset_name type_name : bytes) (under : ctype).
Variables sg catching : bool.
Variable d : nat.
Hypothesis Na : no_nul ability_name.
Hypothesis Nr : no_nul reset_name.
Hypothesis Nt : no_nul type_name.

Local Notation table := (table p ability_name reset_name type_name under).
Local Notation acts := (acts p ability_name reset_name type_name under).
Local Notation C := (cfg_classes sg default_cfg).
Local Notation undefined := (undefined p under C).
Local Notation dialogue := (dialogue table acts C).
Local Notation run := (EnumsExample.run p nm ability_name reset_name type_name under sg catching d).
Local Notation I := (is_implemented p nm ability_name reset_name type_name under sg catching d Na Nr Nt).
Local Notation world_of := (fun z : scene => World (ability z) (mode z) (kind_ z)).

Lemma begun : exists s, start sg = Done s /\ serves sg commands (proper p under) world_of first_scene s.
Proof. exact (started _ _ sg catching d _ _ _ _ _ _ I first_scene (first_good p under)). Qed.

Lemma no_disaster sc lines f : ~ disaster table acts goes_wrong C sc lines f.
Proof. intros D. induction D as [? ? ? ? (n & pos & nd & _ & [])|]; assumption. Qed.

Lemma same_world sc sc' : world_of sc = world_of sc' -> sc = sc'.
Proof. destruct sc, sc'. cbn. now intros [= -> -> ->]. Qed.

(** Exactly the texts of C01 and numbers outside 0..3 for the reset mode are undefined, the latter
    even if the ability is wrong. *)
Theorem C93_fault_iff : forall lines s, Forall no_nul lines -> start sg = Done s ->
  ((exists f, run s lines = Fault f) <-> Exists (fun l => ill_command C l \/ undefined l) lines).
Proof.
  intros lines s N E. destruct begun as (s0 & E0 & R). rewrite E in E0. injection E0 as <-.
  exact (run_fault p nm ability_name reset_name type_name under sg catching d Na Nr Nt lines first_scene s R N).
Qed.

Theorem C93_session_iff : forall lines sc rs, Forall no_nul lines ->
  (dialogue first_scene lines sc rs /\ Forall (fun l => ~ undefined l) lines <->
   exists s s' xs, start sg = Done s /\ run s lines = Done (s', xs) /\ map reply xs = rs /\
     s_world s' = World (ability sc) (mode sc) (kind_ sc)).
Proof.
  intros lines sc rs N. destruct begun as (s & E & R). split.
  - intros [D U]. destruct (run_dialogue p nm _ _ _ under sg catching d Na Nr Nt _ _ _ _ D s N R U) as (s' & xs & H & (_ & _ & Hw & _) & M).
    exists s, s', xs. auto.
  - intros (s0 & s' & xs & E0 & H & M & Hw). rewrite E in E0. injection E0 as <-.
    assert (Nf : ~ Exists (fun l => ill_command C l \/ undefined l) lines).
    { intros X. apply (C93_fault_iff lines s N E) in X. destruct X as (f & F). congruence. }
    assert (U : Forall (fun l => ~ undefined l) lines).
    { apply Forall_forall. intros l J U. apply Nf, Exists_exists. exists l. auto. }
    split; [|exact U].
    destruct (ExampleProofs.total _ _ sg catching d _ _ _ _ _ _ I lines first_scene s R N) as [(sc' & rs' & D)|[(f & D)|D]].
    + destruct (run_dialogue p nm _ _ _ under sg catching d Na Nr Nt _ _ _ _ D s N R U) as (s1 & xs1 & H1 & (_ & _ & Hw1 & _) & M1).
      rewrite H in H1. injection H1 as <- <-. rewrite Hw in Hw1. apply (same_world sc sc') in Hw1. congruence.
    + elim (no_disaster _ _ _ D).
    + exfalso. destruct D as (a & l & b & sc' & rs' & -> & _ & Il). apply Nf, Exists_exists. exists l. split; [|now left].
      apply in_or_app. right. now left.
Qed.

Theorem C93_described : forall lines, Forall no_nul lines ->
  ((exists sc rs, dialogue first_scene lines sc rs) \/ Exists (ill_command C) lines) /\
  (forall sc rs sc' rs', dialogue first_scene lines sc rs -> dialogue first_scene lines sc' rs' -> rs = rs' /\ sc = sc').
Proof.
  intros lines N. destruct begun as (s & E & R). split.
  - destruct (ExampleProofs.total _ _ sg catching d _ _ _ _ _ _ I lines first_scene s R N) as [H|[(f & H)|H]];
      [now left|elim (no_disaster _ _ _ H)|right]. destruct H as (a & l & b & sc' & rs' & -> & _ & Il). apply Exists_exists.
    exists l. split; [|exact Il]. apply in_or_app. right. now left.
  - intros sc rs sc' rs' H H'. destruct (proj1 (not_both _ _ sg catching d _ _ _ _ _ _ I first_scene s lines R N) _ _ _ _ H H') as [X Y].
    split; [exact X|]. now apply same_world.
Qed.

(** The rule of the specification is that of the C++ standard. *)
Theorem C93_undefined_is : forall w,
  (exists f, fromString p nm (reset_enum reset_name under) w = Fault f) <->
  exists s z, w = [s] /\ number p (UInt under) s z /\ ~ castable (reset_enum reset_name under) z.
Proof.
  intros w. rewrite (mode_faults p nm reset_name under Nr w). split; intros (s & z & E & Nu & X); exists s, z; (split; [exact E|]); (split; [exact Nu|]).
  - now rewrite reset_castable.
  - now rewrite reset_castable in X.
Qed.

(** Where the conversion is defined, the serializer of the model converts as the code does. *)
Theorem C93_same_conversion : forall w r, fromString p nm (reset_enum reset_name under) w = Done r ->
  from_value (reset_ser p nm reset_name under) w = r.
Proof.
  intros w r H. unfold reset_ser, enum_serializer. cbn [from_value].
  assert (X : fromString p nm (Enumeration reset_name (UInt under) true (e_decl (reset_enum reset_name under))) w = Done r);
    [|now rewrite X].
  destruct w as [|s [|? ?]]; [exact H| |exact H]. set (e := reset_enum reset_name under) in *.
  set (e' := Enumeration reset_name (UInt under) true (e_decl e)).
  assert (A : names p e false = names p e' false) by (destruct p as [[|] [|]], under; vm_compute; reflexivity).
  assert (B : count p e false = 3 /\ count p e' false = 3) by (destruct p as [[|] [|]], under; vm_compute; now split).
  assert (V : enum_value p e false 0 = enum_value p e' false 0 /\ enum_value p e false 1 = enum_value p e' false 1 /\
    enum_value p e false 2 = enum_value p e' false 2) by (destruct p as [[|] [|]], under; vm_compute; repeat split; reflexivity).
  unfold fromString in *. change (e_under e') with (UInt under). change (e_under e) with (UInt under) in H.
  change (e_type e') with reset_name. change (e_type e) with reset_name in H.
  destruct (underlying_fromString p nm (UInt under) [s]) as [z|m].
  - unfold static_cast in *. cbn [e' e_fixed]. change (e_fixed e) with false in H. cbn [bind] in *.
    destruct ((fst (enum_limits e) <=? z)%Z && (z <=? snd (enum_limits e))%Z); [exact H|discriminate H].
  - unfold enum_cast in *. rewrite (proj1 B) in H. rewrite (proj2 B). cbn [cast_loop] in *.
    destruct V as (V0 & V1 & V2). rewrite A, V0, V1, V2 in H. exact H.
Qed.

(** In a session without undefined behaviour the reset mode stays among the values its type has. *)
Theorem C93_mode_range : forall lines sc rs, Forall (fun l => ~ undefined l) lines ->
  dialogue first_scene lines sc rs -> (0 <= mode sc <= 3)%Z.
Proof.
  assert (K : forall sc lines sc' rs, dialogue sc lines sc' rs -> Forall (fun l => ~ undefined l) lines ->
    (0 <= mode sc <= 3)%Z -> (0 <= mode sc' <= 3)%Z).
  { intros sc lines sc' rs D. induction D as [sc|sc line lines sc1 es ret out sc2 rs A D IH]; intros U M; [exact M|].
    inversion U as [|? ? U1 U2]; subst. apply (IH U2).
    destruct A as [e Q|name pos nd sc1 es ret out Q X]; [exact M|].
    destruct X as [sc1 es ret out Y| | | |]; [|exact M..].
    destruct Y as [nd v w x y V W|nd t T|nd t T|nd t T|nd v x t V T]; cbn [mode]; try exact M.
    destruct W as (s & -> & [Nu|(_ & (m & [F _] & _) & _)]).
    - destruct (Z_le_dec 0 y) as [L|L]; [destruct (Z_le_dec y 3) as [L'|L']; [now split|]|]; exfalso; apply U1;
        exists v, s, y, nd; (split; [exact Q|]); (split; [exact Nu|lia]).
    - apply first_name_In in F. cbn in F. destruct F as [F|[F|[F|[]]]]; injection F as _ <-; lia. }
  intros lines sc rs U D. apply (K _ _ _ _ D U). cbn. lia.
Qed.

Lemma same_identifier s m : same_word s m -> identifier m -> identifier s.
Proof.
  intros S (c & r & -> & L & D). inversion S as [|a ? s' ? A S']; subst. exists a, s'. split; [reflexivity|].
  assert (K : forall x y, same_letter x y -> letter y -> letter x).
  { clear. intros x y [z|u z B Q|u z B Q] L; [exact L|left; lia|right; left; lia]. }
  split; [exact (K _ _ A L)|]. clear - S' D K. induction S' as [|x y s t X S IH]; constructor; inversion D as [|? ? [H|H] D']; subst.
  - left. exact (K _ _ X H).
  - inversion X; subst; [now right|left; left; lia|left; right; left; lia].
  - now apply IH.
  - now apply IH.
Qed.
Lemma same_trans a b c : same_word a b -> same_word b c -> same_word a c.
Proof.
  intros H. revert c. induction H as [|x y a b X H IH]; intros c K; inversion K as [|? z ? c' Z K']; subst; constructor; [|now apply IH].
  apply pred_letter. apply pred_letter in X, Z. unfold Enums.pred in *. apply Z.eqb_eq in X, Z. apply Z.eqb_eq. congruence.
Qed.

Lemma counted_read n t names i m s : no_nul n -> three names -> nth_error names i = Some m -> same_word s m ->
  denotes_value (enum_kind p (counting n t names)) [s] (Z.of_nat i).
Proof.
  intros N H J Sm. exists s. split; [reflexivity|]. assert (De := counting_ok p n t names N H).
  destruct (three_names names H) as (a & b & c & En).
  assert (F : first_name (counting n t names) (Z.of_nat i) m).
  { rewrite En in J |- *. apply counting_first. destruct i as [|[|[|i]]]; cbn in J; [injection J as <-; auto..|destruct i; discriminate]. }
  right. split.
  - intros (z & X). revert X. apply identifier_no_integer. exact (same_identifier s m Sm (proj1 (declared_ok p _ De _ _ F))).
  - split.
    + exists m. split; [|exact Sm]. split; [exact F|]. rewrite En in F. apply counting_first in F. lia.
    + intros w m' [Vw _] Sw. assert (Q := same_trans _ _ _ (same_word_sym _ _ Sm) Sw). apply cmp_equal_iff in Q. clear - H F Vw Q.
      destruct H as [->|[->| ->]]; apply counting_first in F; apply counting_first in Vw;
      repeat match goal with X : _ \/ _ |- _ => destruct X as [X|X] | X : _ /\ _ |- _ => destruct X end; subst; try discriminate Q; lia.
Qed.

(** An ability and a reset mode, by their names in any case: get_ability and get_reset_mode then
    return the names as they are declared, and variable_type keeps its value. *)
Theorem C93_set_get : forall sc nd a b i j m r, nth_error abilities i = Some m -> nth_error modes j = Some r ->
  same_word a m -> same_word b r ->
  exists sc', acts sc (lit "abilities.set_ability") [[a]; [b]] nd sc' [] None [] /\ kind_ sc' = kind_ sc /\
    (forall nd', acts sc' (lit "abilities.get_ability") [] nd' sc' [] (Some m) []) /\
    (forall nd', acts sc' (lit "abilities.get_reset_mode") [] nd' sc' [] (Some r) []).
Proof.
  intros sc nd a b i j m r Hi Hj A B. exists (Scene (Z.of_nat i) (Z.of_nat j) (kind_ sc)). split.
  - apply acts_set; [exact (counted_read _ _ _ _ _ _ Na three_a Hi A)|exact (counted_read _ _ _ _ _ _ Nr three_m Hj B)].
  - split; [reflexivity|]. split; intros nd'; [apply acts_ability|apply acts_mode]; left; cbn [ability mode]; rewrite Nat2Z.id; (split; [lia|assumption]).
Qed.

(** The same for the variable, which answers at once. *)
Theorem C93_variable : forall sc nd a i m, nth_error kinds i = Some m -> same_word a m ->
  exists sc', acts sc (lit "variable_type") [[a]] nd sc' [] (Some m) [] /\ ability sc' = ability sc /\ mode sc' = mode sc /\
    (forall nd', acts sc' (lit "variable_type") [] nd' sc' [] (Some m) []).
Proof.
  intros sc nd a i m Hi A. exists (Scene (ability sc) (mode sc) (Z.of_nat i)).
  assert (T : shown kinds (Z.of_nat i) m) by (left; rewrite Nat2Z.id; split; [lia|assumption]). split.
  - eapply acts_set_kind; [exact (counted_read _ _ _ _ _ _ Nt three_k Hi A)|exact T].
  - split; [reflexivity|]. split; [reflexivity|]. intros nd'. now apply acts_kind.
Qed.

(** "Only the declared abilities are accepted" is false: the number 7 is, and has no text. *)
Theorem C93_rejected_refuted : forall sc nd nd', exists sc',
  acts sc (lit "abilities.set_ability") [[lit "7"]; [lit "Never"]] nd sc' [] None [] /\
  acts sc' (lit "abilities.get_ability") [] nd' sc' [] (Some []) [].
Proof.
  intros sc nd nd'. exists (Scene 7 0 (kind_ sc)). split.
  - apply acts_set; [|exact (counted_read _ _ _ 0 _ _ Nr three_m eq_refl (same_word_refl _))].
    apply (proj1 (ia p nm ability_name Na)). destruct p as [[|] [|]], nm as [[|] [|]]; vm_compute; reflexivity.
  - apply acts_ability. right. split; [right; vm_compute; discriminate|reflexivity].
Qed.

(** "Every text without the fault of C01 is safe" is false, whatever the underlying type is, even if
    the ability is refused: *)
Theorem C93_safe_refuted : forall s, start sg = Done s ->
  undefined (lit "abilities.set_ability NoRecoil 4") /\ exists f, run s [lit "abilities.set_ability NoRecoil 4"] = Fault f.
Proof.
  assert (U : undefined (lit "abilities.set_ability NoRecoil 4")).
  { exists [lit "NoRecoil"], (lit "4"), 4%Z, []. split; [|split; [|lia]].
    - apply C07_value_iff_wellformed. destruct sg; vm_compute; reflexivity.
    - apply (number_iff p nm). destruct p as [[|] [|]], nm as [[|] [|]], under; vm_compute; reflexivity. }
  intros s E. split; [exact U|]. apply (C93_fault_iff [lit "abilities.set_ability NoRecoil 4"] s); [|exact E|constructor; now right].
  repeat constructor. vm_compute. intuition discriminate.
Qed.
End Theorems.

(** ** Examples *)

Definition ex_a : bytes := lit "{anonymous}::PlayerAbilitySystem::Ability".
Definition ex_r : bytes := lit "{anonymous}::PlayerAbilitySystem::ResetMode".
Definition ex_t : bytes := lit "EnumsExample::run()::VariableType".
Definition ex_run (s : state world fn) (l : list string) :=
  EnumsExample.run ex_p ex_nm ex_a ex_r ex_t CUInt true true 3 s (map lit l).
Definition ex_session (l : list string) : outcome (list (list bytes * option bytes * bytes) * world) :=
  s <- start true ;;
  r <- ex_run s l ;;
  Done (map reply (snd r), s_world (fst r)).
Definition ex_shows (t : string) : list bytes * option bytes * bytes := ([], Some (lit t), []).
Definition ex_quiet : list bytes * option bytes * bytes := ([], None, []).
Definition ex_error (t : string) : list bytes * option bytes * bytes := ([lit t], None, []).

(** The commands of EnumsExample.cpp:73-86. *)
Definition ex_commands : list string :=
  ["abilities.set_ability SpeedBoost AfterDelay"; "abilities.get_ability"; "abilities.get_reset_mode"; "variable_type";
   "variable_type Float"; "variable_type Custom"; "abilities.set_ability NoRecoil AfterDelay";
   "abilities.set_ability SpeedBoost AfterFrame"]%string.
Definition ex_replies : list (list bytes * option bytes * bytes) :=
  [ex_quiet; ex_shows "SpeedBoost"; ex_shows "AfterDelay"; ex_shows "String"; ex_shows "Float";
   ex_error "Unable to convert 'Custom' to type 'EnumsExample::run()::VariableType': Possible values are ['Integer', 'Float', 'String']";
   ex_error "Unable to convert 'NoRecoil' to type '{anonymous}::PlayerAbilitySystem::Ability': Possible values are ['None', 'SpeedBoost', 'IncreasedHealth']";
   ex_error "Unable to convert 'AfterFrame' to type '{anonymous}::PlayerAbilitySystem::ResetMode': Possible values are ['Never', 'AfterDelay', 'AfterDeath']"]%string.
Example C93_ex_run : ex_session ex_commands = Done (ex_replies, World 1 1 1).
Proof. vm_compute. reflexivity. Qed.

(** Any case, numbers, and numbers without a name; 3 is a value of ResetMode. *)
Example C93_ex_other : ex_session ["abilities.set_ability increasedhealth AFTERDEATH"; "abilities.get_ability"; "abilities.get_reset_mode";
    "abilities.set_ability 7 3"; "abilities.get_ability"; "abilities.get_reset_mode"; "variable_type 0"; "variable_type -1"; "variable_type a b"]%string =
  Done ([ex_quiet; ex_shows "IncreasedHealth"; ex_shows "AfterDeath"; ex_quiet; ex_shows ""; ex_shows ""; ex_shows "Integer"; ex_shows "";
         ex_error "Wrong number of arguments to 'variable_type': expected 0 or 1, got 2"], World 7 3 (-1)).
Proof. vm_compute. reflexivity. Qed.
Example C93_ex_undefined : exists f, ex_session ["variable_type"; "abilities.set_ability None 4"]%string = Fault f.
Proof. eexists. vm_compute. reflexivity. Qed.

Lemma ran {A B C D E} (st : outcome A) (go : A -> outcome (B * C)) (f : C -> D) (g : B -> E) s r w :
  (s0 <- st ;; x <- go s0 ;; Done (f (snd x), g (fst x))) = Done (r, w) -> st = Done s ->
  exists s' xs, go s = Done (s', xs) /\ f xs = r /\ g s' = w.
Proof.
  intros X ->. cbn [bind] in X. destruct (go s) as [[s' xs]|?]; [|discriminate X]. cbn [bind fst snd] in X.
  injection X as <- <-. now exists s', xs.
Qed.
Lemma ex_done l r w s : ex_session l = Done (r, w) -> start true = Done s ->
  exists s' xs, ex_run s l = Done (s', xs) /\ map reply xs = r /\ s_world s' = w.
Proof. exact (ran (start true) (fun s => ex_run s l) (map reply) s_world s r w). Qed.
Lemma ex_na : no_nul ex_a. Proof. now apply no_nul_lit. Qed.
Lemma ex_nr : no_nul ex_r. Proof. now apply no_nul_lit. Qed.
Lemma ex_nt : no_nul ex_t. Proof. now apply no_nul_lit. Qed.
(** The left side of C93_session_iff and the hypotheses of C93_mode_range. *)
Example C93_ex_dialogue :
  dialogue (table ex_p ex_a ex_r ex_t CUInt) (acts ex_p ex_a ex_r ex_t CUInt) (cfg_classes true default_cfg) first_scene
    (map lit ex_commands) (Scene 1 1 1) ex_replies /\
  Forall (fun l => ~ undefined ex_p CUInt (cfg_classes true default_cfg) l) (map lit ex_commands).
Proof.
  apply (C93_session_iff ex_p ex_nm ex_a ex_r ex_t CUInt true true 3 ex_na ex_nr ex_nt).
  - unfold ex_commands. cbn [map]. repeat constructor; vm_compute; intuition discriminate.
  - destruct (begun ex_p ex_nm ex_a ex_r ex_t CUInt true true 3 ex_na ex_nr ex_nt) as (s & X & _). exists s.
    destruct (ex_done _ _ _ s C93_ex_run X) as (s' & xs & H). exists s', xs. split; [exact X|exact H].
Qed.
(** The hypotheses of C93_set_get and C93_variable. *)
Example C93_ex_names : nth_error abilities 1 = Some (lit "SpeedBoost") /\ nth_error modes 2 = Some (lit "AfterDeath") /\
  nth_error kinds 1 = Some (lit "Float") /\ same_word (lit "speedBOOST") (lit "SpeedBoost") /\ same_word (lit "afterdeath") (lit "AfterDeath").
Proof. repeat (split; [reflexivity|]). split; apply cmp_equal_iff; reflexivity. Qed.

(** * Assumptions *)
Print Assumptions C93_fault_iff.
Print Assumptions C93_session_iff.
Print Assumptions C93_described.
Print Assumptions C93_undefined_is.
Print Assumptions C93_same_conversion.
Print Assumptions C93_mode_range.
Print Assumptions C93_set_get.
Print Assumptions C93_variable.
Print Assumptions C93_rejected_refuted.
Print Assumptions C93_safe_refuted.
