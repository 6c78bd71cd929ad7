(** C90: the commands of examples/usertypes. *)
From Coq Require Import Ascii String NArith ZArith QArith Bool PeanoNat Lia Permutation List.
Import ListNotations.
From Verif Require Import Util Base LexerSpec StringConv StringConvSpec StringConvProofs SerializerSpec Serializer
  SerializerProofs Lexer LexerMeta LexerProofs LexerMore P_Lexer P_StringConv P_Serializer UMap Exec ExecSpec ExecProofs P_Exec
  FloatConv FloatConvSpec FloatSerializer P_FloatSerializer FloatConvProofs UserTypes UserTypesSpec UserTypesProofs P_UserTypes
  FloatOps FloatOpsSpec FloatOpsProofs FloatSum FloatSumSpec FloatSumProofs
  NamedExample NamedExampleSpec NamedExampleProofs
  ExampleSession ExampleSpec ExampleProofs ExampleMore UsertypesExample UsertypesExampleSpec.
From Verif Require P_PropertiesExample.

Local Notation length := List.length.
Local Open Scope nat_scope.

(** ** The names *)

Lemma index_first n l : forall i, index_of n l = Some i <-> first_at n l (Z.of_nat i).
Proof.
  induction l as [|x l IH]; intros i; cbn [index_of].
  - split; [discriminate|]. intros (a0 & b0 & E & _). now destruct a0.
  - destruct (bytes_eqb_spec x n) as [->|N].
    + split.
      * intros [= <-]. exists [], l. split; [reflexivity|]. split; [intros []|reflexivity].
      * intros ([|y a] & b & E & Na & L); [cbn in L; f_equal; lia|]. injection E as -> _. elim Na. now left.
    + destruct (index_of n l) as [j|].
      * split.
        -- intros [= <-]. destruct (proj1 (IH j) eq_refl) as (a & b & -> & Na & L). exists (x :: a), b.
           split; [reflexivity|]. split; [intros [->|H]; [now apply N|exact (Na H)]|]. cbn [List.length]. lia.
        -- intros ([|y a] & b & E & Na & L); injection E as -> E; [now elim N|]. cbn [List.length] in L. f_equal.
           assert (X : Some j = Some (i - 1)); [|injection X; lia]. apply IH. exists a, b.
           split; [exact E|]. split; [|lia]. intros H. apply Na. now right.
      * split; [discriminate|]. intros ([|y a] & b & E & Na & L); injection E as -> E; [now elim N|]. cbn [List.length] in L.
        assert (X : None = Some (i - 1)); [|discriminate X]. apply IH. exists a, b.
        split; [exact E|]. split; [|lia]. intros H. apply Na. now right.
Qed.
Lemma index_none n l : index_of n l = None <-> ~ In n l.
Proof.
  split.
  - intros E H. destruct (in_split n l H) as (a & b & ->). clear H. revert E. induction a as [|x a IH]; cbn [index_of app].
    + rewrite bytes_eqb_refl. discriminate.
    + destruct (bytes_eqb x n); [discriminate|]. destruct (index_of n (a ++ n :: b)); [discriminate|exact IH].
  - intros N. destruct (index_of n l) as [i|] eqn:E; [|reflexivity]. apply index_first in E.
    destruct E as (a & b & -> & _). elim N. apply in_or_app. right. now left.
Qed.

Lemma without_total v l : exists r, without v l r.
Proof.
  induction l as [|x l (r & H)]; [exists []; constructor|].
  destruct (in_dec (list_eq_dec ascii_dec) x v) as [J|J]; [exists r; now constructor|exists (x :: r); now constructor].
Qed.
Lemma without_det v l r : without v l r -> forall r', without v l r' -> r = r'.
Proof.
  induction 1 as [|x l r J H IH|x l r J H IH]; intros r' H'; inversion H'; subst; try contradiction; [reflexivity|now apply IH|f_equal; now apply IH].
Qed.
Lemma without_nothing l : without [] l l.
Proof. induction l as [|x l IH]; [constructor|]. apply without_keep; [intros []|exact IH]. Qed.
Lemma without_first x v l r : without v (erase_all l x) r -> without (x :: v) l r.
Proof.
  revert r. induction l as [|y l IH]; intros r; cbn [erase_all filter].
  - intros H. inversion H. constructor.
  - fold (erase_all l x). destruct (bytes_eqb_spec y x) as [->|N]; cbn [negb].
    + intros H. apply without_drop; [now left|now apply IH].
    + intros H. inversion H; subst; [apply without_drop; [now right|now apply IH]|].
      apply without_keep; [|now apply IH]. intros [->|K]; [now apply N|contradiction].
Qed.
Lemma erased v : forall l r, fold_left erase_all v l = r <-> without v l r.
Proof.
  assert (G : forall l, without v l (fold_left erase_all v l)).
  { induction v as [|x v IH]; intros l; cbn [fold_left]; [apply without_nothing|]. apply without_first, IH. }
  intros l r. split; [intros <-; apply G|]. apply without_det, G.
Qed.

Section Usertypes.
Variables (p : platform) (nm : naming) (uf : bool) (size_t : ctype) (nan_sign : bool).
Variables sg catching : bool.
Variable d : nat.
Hypothesis Us : size_type size_t.

Local Notation code := (code p nm uf size_t nan_sign).
Local Notation table := (table p nm uf size_t).
Local Notation acts := (acts p nm uf size_t nan_sign).
Local Notation goes_wrong := (goes_wrong p nm).
Local Notation good := (proper p size_t).
Local Notation world_of := (fun z : scene => World (names z) (focus z) (position z) (velocity z) None).
Local Notation serves := (serves sg commands good world_of).
Local Notation run := (run_prog sg (nested_exec code sg catching d)).
Local Notation exec := (exec_input code sg catching d).
Local Notation Fi := (float_implements uf).
Local Notation Ii := (integer_implements p nm CInt).
Local Notation Si := (integer_implements p nm size_t).
Local Notation sizes := (denotes_value (size_kind p nm size_t)).
Local Notation floats := (denotes_value (float_kind uf)).
Local Notation integers := (integers p nm).

(** ** The parameters *)

Lemma vec_fits : fits (vec2_serializer uf) (vec_param uf).
Proof.
  split; cbn.
  - intros v. split; intros (x & H); exists x; now apply pair_value in H || now apply pair_value.
  - intros v e N. assert (Z0 : no_nul []) by intros []. apply (C76_pair_error_iff uf [] v e Z0 N).
Qed.

Lemma id_value v x : from_value (entity_serializer p nm size_t) v = Value x <-> sizes v x.
Proof.
  cbn [from_value entity_serializer]. unfold entity_fromString. split.
  - destruct (from_value (int_serializer p nm size_t) v) as [y|e] eqn:E; [|discriminate]. intros [= <-]. now apply (proj1 Si).
  - intros H. apply (proj1 Si) in H. now rewrite H.
Qed.
Lemma id_fits : fits (entity_serializer p nm size_t) (id_param p nm size_t).
Proof.
  split; cbn [p_ok p_bad id_param p_type].
  - intros v. split; intros (x & H); exists x; now apply id_value.
  - intros v e N. cbn [from_value entity_serializer]. unfold entity_fromString.
    destruct (from_value (int_serializer p nm size_t) v) as [y|c] eqn:E.
    + split; [discriminate|]. intros (c & Cm & _). apply (proj2 Si v c N) in Cm. congruence.
    + assert (G : conversion_error (lit "EntityId") v (Some c) (createGenericError (lit "EntityId") v c)).
      { destruct (C19_builtin_errors_nonempty p nm true (int_serializer p nm size_t) v c
              (builtin_scalar _ _ _ _ (scalar_int _ _ _ size_t)) N E) as (_ & D1 & D2).
        apply generic_error_detail; auto. now apply no_nul_lit. }
      split.
      * intros [= <-]. exists c. split; [now apply (proj2 Si)|exact G].
      * intros (c' & Cm & H). apply (proj2 Si v c' N) in Cm. rewrite E in Cm. injection Cm as <-.
        exact (f_equal Error (conversion_error_unique _ _ _ _ _ G H)).
Qed.

Lemma texts_value v l : from_value (array_serializer string_serializer) v = Value l <-> v = l.
Proof.
  rewrite C76_array_accept_iff. split.
  - intros H. induction H as [|s x v l E H IH]; [reflexivity|]. cbn in E. injection E as <-. now rewrite IH.
  - intros <-. induction v as [|s v IH]; constructor; [reflexivity|exact IH].
Qed.
Lemma texts_fits : fits (array_serializer string_serializer) texts_param.
Proof.
  split; cbn [p_ok p_bad texts_param p_type].
  - intros v. split; intros (x & H); exists x; now apply texts_value.
  - intros v e _. split; [|intros []]. rewrite (proj2 (texts_value v v) eq_refl). discriminate.
Qed.

Lemma word_value s (z : Z) : from_value (int_ser p nm) [s] = Value z <-> k_word (integer_kind p nm CInt) s z.
Proof.
  split.
  - intros E. apply (proj1 Ii) in E. destruct E as (s' & [= <-] & W). exact W.
  - intros W. apply (proj1 Ii). now exists s.
Qed.
Lemma ints_value v (zs : list Z) : from_value (array_serializer (int_ser p nm)) v = Value zs <-> integers v zs.
Proof.
  rewrite C76_array_accept_iff. unfold UsertypesExampleSpec.integers.
  split; intros H; induction H as [|s z v zs E H IH]; constructor; try exact IH; now apply word_value.
Qed.
Lemma ints_fits : fits (array_serializer (int_ser p nm)) (ints_param p nm).
Proof.
  split; cbn [p_ok p_bad ints_param p_type].
  - intros v. split; intros (x & H); exists x; now apply ints_value.
  - intros v e N.
    assert (Nn : no_nul (tname (int_ser p nm))).
    { destruct (C19_builtin_errors_nonempty p nm true (int_ser p nm) [[]] (createGenericError (tname (int_ser p nm)) [[]] [])
              (builtin_scalar _ _ _ _ (scalar_int _ _ _ CInt))) as (H & _).
      - intros s [<-|[]] [].
      - reflexivity.
      - exact H. }
    assert (Ns : forall s, In s v -> value_no_nul [s]) by (intros s J s' [<-|[]]; now apply N).
    assert (Er : forall s e0, In s v -> from_value (int_ser p nm) [s] = Error e0 -> e0 <> [] /\ no_nul e0).
    { intros s e0 J E. destruct (C19_builtin_errors_nonempty p nm true (int_ser p nm) [s] e0
              (builtin_scalar _ _ _ _ (scalar_int _ _ _ CInt)) (Ns s J) E) as (_ & D1 & D2). now split. }
    refine (iff_trans (C76_array_error_iff (int_ser p nm) v e Nn N Er) _). split.
    + intros (pre & s & post & c & -> & Hp & Es & Ce).
      assert (X : exists zs, integers pre zs).
      { clear - Hp. induction pre as [|x pre IH]; [exists []; constructor|]. destruct IH as (zs & H); [intros s J; apply Hp; now right|].
        destruct (Hp x (or_introl eq_refl)) as (z & E). exists (z :: zs). constructor; [now apply word_value|exact H]. }
      destruct X as (zs & Hz). exists pre, s, post, zs, c. split; [reflexivity|]. split; [exact Hz|]. split; [|exact Ce].
      apply (proj2 Ii); [|exact Es]. apply Ns. apply in_or_app. right. now left.
    + intros (pre & s & post & zs & c & -> & Hz & Cm & Ce). exists pre, s, post, c. split; [reflexivity|]. split; [|split; [|exact Ce]].
      * clear - Hz. induction Hz as [|x z pre zs W H IH]; [intros ? []|]. intros s' [<-|J]; [exists z; now apply word_value|now apply IH].
      * apply (proj2 Ii) in Cm; [exact Cm|]. apply Ns. apply in_or_app. right. now left.
Qed.

Lemma agreed : Forall2 (agree code) commands table.
Proof.
  assert (Ff : fits (float_ser uf) (float_param uf)) by exact (implements_fits _ _ Fi).
  assert (Ft : fits string_serializer text_param) by exact (implements_fits _ _ text_implements).
  assert (A := vec_fits). assert (B := id_fits). assert (C := texts_fits). assert (D := ints_fits).
  repeat apply Forall2_cons; try apply Forall2_nil; (split; [reflexivity|]); (split; [discriminate|]);
    (split; [cbn; repeat constructor; cbn; intuition discriminate|]); cbn [snd];
    repeat first [assumption|apply Forall2_cons|apply Forall2_nil].
Qed.

Lemma text_one t : converts [string_serializer] [[t]] ((t, tt) : args_of [string_serializer]).
Proof. apply converts_cons; [reflexivity|constructor]. Qed.
Lemma texts_one v : converts [array_serializer string_serializer] [v] ((v, tt) : args_of [array_serializer string_serializer]).
Proof. apply converts_cons; [now apply texts_value|constructor]. Qed.
Lemma id_one v (i : Z) : sizes v i -> converts [entity_serializer p nm size_t] [v] ((i, tt) : args_of [entity_serializer p nm size_t]).
Proof. intros H. apply converts_cons; [now apply id_value|constructor]. Qed.
Lemma float_one v (t : fval) : floats v t -> converts [float_ser uf] [v] ((t, tt) : args_of [float_ser uf]).
Proof. intros H. apply converts_cons; [now apply (proj1 Fi)|constructor]. Qed.
Lemma vec_one v (x : fval * fval) : denotes_pair uf v x -> converts [vec2_serializer uf] [v] ((x, tt) : args_of [vec2_serializer uf]).
Proof. intros H. apply converts_cons; [now apply (pair_value uf (lit "Vec2"))|constructor]. Qed.
Lemma vec_two v w (x y : fval * fval) : denotes_pair uf v x -> denotes_pair uf w y ->
  converts [vec2_serializer uf; vec2_serializer uf] [v; w] ((x, (y, tt)) : args_of [vec2_serializer uf; vec2_serializer uf]).
Proof. intros H K. apply converts_cons; [now apply (pair_value uf (lit "Vec2"))|now apply vec_one]. Qed.
Lemma ints_one v (zs : list Z) : integers v zs -> converts [array_serializer (int_ser p nm)] [v] ((zs, tt) : args_of [array_serializer (int_ser p nm)]).
Proof. intros H. apply converts_cons; [now apply ints_value|constructor]. Qed.

Lemma float_in v t : floats v t -> value_in binary32 t.
Proof. intros (w & _ & V). exact (value_in_conversion uf w t V). Qed.
Lemma pair_in v x : denotes_pair uf v x -> value_in binary32 (fst x) /\ value_in binary32 (snd x).
Proof. intros (a & b & _ & A & B). split; [exact (value_in_conversion uf a _ A)|exact (value_in_conversion uf b _ B)]. Qed.

Lemma moved_is x v t y : value_in binary32 v -> value_in binary32 t ->
  (moved nan_sign x v t y <-> y = fadd nan_sign x (fmul nan_sign v t)).
Proof.
  intros V T. split.
  - intros (z & P & S). apply fmul_product in P; [|exact V|exact T]. apply fadd_sum in S. now rewrite P, S.
  - intros ->. exists (fmul nan_sign v t). split; [now apply fmul_product|now apply fadd_sum].
Qed.
Lemma moved_pair_is x v t y : value_in binary32 (fst v) -> value_in binary32 (snd v) -> value_in binary32 t ->
  (moved_pair nan_sign x v t y <-> y = vec_plus nan_sign x (vec_times nan_sign v t)).
Proof.
  intros V W T. unfold moved_pair. rewrite (moved_is _ _ _ _ V T), (moved_is _ _ _ _ W T). unfold vec_plus, vec_times. cbn [fst snd].
  destruct y as [a b]. cbn [fst snd]. split; [now intros [-> ->]|]. intros [= -> ->]. now split.
Qed.

Lemma pair_text_is x t : value_in binary32 (fst x) -> value_in binary32 (snd x) -> (pair_text x t <-> t = vec2_text x).
Proof.
  intros A B. unfold pair_text, vec2_text. split.
  - intros (a & b & Sa & Sb & ->). apply shows_fixed_iff in Sa, Sb; auto. now rewrite Sa, Sb.
  - intros ->. exists (printf_f (fst x)), (printf_f (snd x)). split; [now apply shows_fixed_iff|]. split; [now apply shows_fixed_iff|reflexivity].
Qed.
Lemma pair_rtext x t : value_in binary32 (fst x) -> value_in binary32 (snd x) -> pair_text x t ->
  rtext (RValue (vec2_serializer uf)) x = Done (Some t).
Proof. intros A B H. apply pair_text_is in H; auto. now rewrite H. Qed.
Lemma moved_in x y : value_in binary32 (fst (vec_plus nan_sign x y)) /\ value_in binary32 (snd (vec_plus nan_sign x y)).
Proof. split; apply fadd_in. Qed.

Lemma id_is i a : (0 <= i)%Z -> canonical i a -> id_text a = entity_text i.
Proof. intros L C. rewrite (P_PropertiesExample.canonical_same _ _ _ C (dec_canonical _ L)). reflexivity. Qed.
Lemma id_rtext i a : (0 <= i)%Z -> canonical i a -> rtext (RValue (entity_serializer p nm size_t)) i = Done (Some (id_text a)).
Proof. intros L C. rewrite (id_is i a L C). reflexivity. Qed.
Lemma size_nonneg i : in_range p size_t i -> (0 <= i)%Z.
Proof. intros H. now apply (size_range p size_t Us) in H. Qed.
Lemma size_value_in v i : sizes v i -> in_range p size_t i.
Proof. intros (w & _ & V). inversion V; subst; assumption. Qed.
Lemma int_text z t : canonical z t -> rtext (RValue (int_ser p nm)) z = Done (Some t).
Proof.
  intros C. rewrite (P_PropertiesExample.canonical_same _ _ _ C (P_PropertiesExample.printf_d_canonical z)). reflexivity.
Qed.

(** ** The commands *)

Local Notation taken := (taken code).
Lemma only_one (f : fn) : taken [f] f.
Proof. exists [], []. split; [reflexivity|intros ? []]. Qed.
Lemma the_first (f g : fn) : taken [f; g] f.
Proof. exists [], [g]. split; [reflexivity|intros ? []]. Qed.
Lemma the_second (f g : fn) : length (f_params (code f)) <> length (f_params (code g)) -> taken [f; g] g.
Proof. intros H. exists [f], []. split; [reflexivity|]. now intros ? [<-|[]]. Qed.

Ltac acting fs f vs scn r txt :=
  match goal with R : serves ?sc0 ?s, nd : list (bytes * list bytes) |- exists inp s', exec_input _ _ _ _ _ (Input ?n ?pos _) = _ /\ _ =>
    apply (run_acts code sg catching d commands good world_of sc0 s n fs f pos nd vs scn [] [] r txt R);
      try discriminate; [cbn; tauto|first [apply only_one|apply the_first|apply the_second; discriminate]|..]
  end.
Ltac steps := intros sid _; cbn [UsertypesExample.code variable_get variable_set f_body fst snd run_prog s_world set_world
  set_names set_focus set_pos set_particle w_names w_focus w_pos w_vel w_wrong
  names focus position velocity with_names with_focus with_position].

Lemma exec_acts sc s name pos nd sc' es ret out : serves sc s -> acts sc name pos nd sc' es ret out ->
  exists inp s', exec s (Input name pos nd) = Done (s', inl (Result inp es ret out)) /\ serves sc' s'.
Proof.
  intros R A. assert (Hw := proj1 (proj2 (proj2 R))). assert (G := proj2 (proj2 (proj2 R))). cbn beta in Hw, G.
  assert (Kp : set_world s (world_of sc) = s) by (rewrite <- Hw; now destruct s).
  destruct G as (Gf & Gx & Gy & Gu & Gv). assert (G : good sc) by (repeat split; assumption || apply Gf).
  destruct A as [nd n a Ca|nd n i a Fa Ca|nd n N|nd a Ca|nd v i a V Ca|nd v l L|nd v w x y V W|nd v t y a V M Pt|nd a Pt|nd v x a V Pt|nd v zs a V Sm Ca].
  - acting [FAdd] FAdd (n, tt) (with_names (names sc ++ [n]) sc) (Z.of_nat (length (names sc))) (Some (id_text a));
      [exact (text_one n)|exact G| |apply id_rtext; [lia|exact Ca]].
    steps. unfold add. cbn [run_prog]. rewrite Hw. reflexivity.
  - assert (Ni : (0 <= i)%Z) by (destruct Fa as (? & ? & _ & _ & ->); lia).
    acting [FFind] FFind (n, tt) sc (Some i) (Some (id_text a)); [exact (text_one n)|exact G| |].
    + steps. unfold find. cbn [run_prog]. rewrite Hw. cbn [w_names]. assert (E : index_of n (names sc) = Some (Z.to_nat i)).
      { apply index_first. now rewrite Z2Nat.id. }
      rewrite E. cbn [option_map]. rewrite Z2Nat.id by exact Ni. now rewrite Kp.
    + rewrite (id_is i a Ni Ca). reflexivity.
  - acting [FFind] FFind (n, tt) sc (@None Z) (Some (@nil byte)); [exact (text_one n)|exact G| |reflexivity].
    steps. unfold find. cbn [run_prog]. rewrite Hw. cbn [w_names]. rewrite (proj2 (index_none _ _) N). cbn [option_map]. now rewrite Kp.
  - acting [FFocusGet; FFocusSet] FFocusGet tt sc (focus sc) (Some (id_text a)); [constructor|exact G| |apply id_rtext; [now apply size_nonneg|exact Ca]].
    steps. now rewrite Hw, Kp.
  - acting [FFocusGet; FFocusSet] FFocusSet (i, tt) (with_focus i sc) i (Some (id_text a));
      [exact (id_one v i V)| | |apply id_rtext; [exact (size_nonneg i (size_value_in v i V))|exact Ca]].
    + repeat split; try assumption; apply (size_value_in v i V).
    + steps. now rewrite Hw.
  - acting [FRemoveSome] FRemoveSome (v, tt) (with_names l sc) tt (@None bytes); [exact (texts_one v)|exact G| |reflexivity].
    steps. unfold removeSome. cbn [run_prog]. rewrite Hw. cbn [w_names]. apply erased in L. rewrite L. reflexivity.
  - acting [FSpawn] FSpawn (x, (y, tt)) (Scene (names sc) (focus sc) x y) tt (@None bytes); [exact (vec_two v w x y V W)| | |reflexivity].
    + destruct (pair_in v x V), (pair_in w y W). repeat split; try assumption; apply Gf.
    + steps. unfold spawn. cbn [run_prog]. rewrite Hw. reflexivity.
  - assert (T := float_in v t V). apply moved_pair_is in M; try assumption. destruct (moved_in (position sc) (vec_times nan_sign (velocity sc) t)) as [Ma Mb].
    rewrite <- M in Ma, Mb.
    acting [FGetPosAt] FGetPosAt (t, tt) sc y (Some a); [exact (float_one v t V)|exact G| |now apply pair_rtext].
    steps. unfold get_pos_at. cbn [run_prog]. rewrite Hw. cbn [w_pos w_vel]. rewrite <- M. now rewrite Kp.
  - acting [FPosGet; FPosSet] FPosGet tt sc (position sc) (Some a); [constructor|exact G| |now apply pair_rtext].
    steps. now rewrite Hw, Kp.
  - destruct (pair_in v x V) as [Xa Xb].
    acting [FPosGet; FPosSet] FPosSet (x, tt) (with_position x sc) x (Some a); [exact (vec_one v x V)| | |now apply pair_rtext].
    + repeat split; try assumption; apply Gf.
    + steps. now rewrite Hw.
  - acting [FSum] FSum (zs, tt) sc (total zs) (Some a); [exact (ints_one v zs V)|exact G| |now apply int_text].
    steps. unfold sum. rewrite (proj2 (C76_sum_iff zs (total zs)) (conj eq_refl Sm)). cbn [run_prog]. now rewrite Kp.
Qed.

Lemma summable_dec zs : summable zs \/ exists s, prefix_sum zs s /\ ~ int_range s.
Proof.
  destruct (sum_all zs) as [z|f] eqn:E.
  - left. now apply C76_sum_iff in E.
  - right. apply C76_sum_fault_iff in E. apply E.
Qed.

Lemma exec_wrong sc s name pos nd f : serves sc s -> goes_wrong sc name pos nd f ->
  ends w_wrong f (exec s (Input name pos nd)).
Proof.
  intros R A. assert (Hw := proj1 (proj2 (proj2 R))). cbn beta in Hw. destruct A as [nd v zs V N].
  assert (E : sum_all zs = Fault Overflow).
  { apply C76_sum_fault_iff. split; [reflexivity|]. destruct (summable_dec zs) as [H|H]; [contradiction|exact H]. }
  right. left. exists (set_world s (set_wrong Overflow (world_of sc))). eexists. split; [|reflexivity].
  apply (run_done code sg catching d commands good world_of sc s _ [FSum] FSum [v] nd (zs, tt)
           (set_world s (set_wrong Overflow (world_of sc))) [] [] 0%Z (Some (lit "0")) R);
    try discriminate; [cbn; tauto|apply only_one|exact (ints_one v zs V)| |reflexivity].
  steps. unfold sum. rewrite E. cbn [run_prog]. rewrite Hw. reflexivity.
Qed.

Lemma accepted_nil pos : accepted [] pos -> pos = [].
Proof. intros H. now inversion H. Qed.
Lemma accepted_cons P Ps pos : accepted (P :: Ps) pos -> exists v x vs, pos = v :: vs /\ p_ok P v x /\ accepted Ps vs.
Proof. intros H. inversion H as [|? v ? vs (x & O) H']; subst. now exists v, x, vs. Qed.

Lemma acts_total sc name pos nd overloads Ps : good sc -> In (name, overloads) table -> In Ps overloads -> accepted Ps pos ->
  (exists sc' es ret out, acts sc name pos nd sc' es ret out) \/ exists f, goes_wrong sc name pos nd f.
Proof.
  intros (Gf & Gx & Gy & Gu & Gv) J K A. cbn in J. repeat (destruct J as [J|J]; [injection J as <- <-|]); [..|destruct J];
    cbn in K; repeat (destruct K as [<-|K]); try destruct K;
    repeat (let v := fresh "v" in let x := fresh "x" in let V := fresh "V" in
            apply accepted_cons in A; destruct A as (v & x & ? & -> & V & A); cbn in x, V); apply accepted_nil in A; subst;
    repeat match goal with V : denotes_value text_kind _ _ |- _ => destruct V as (? & -> & <-) end.
  - left. eexists _, _, _, _. apply acts_add. apply dec_canonical. lia.
  - left. match goal with |- exists _ _ _ _, UsertypesExampleSpec.acts _ _ _ _ _ _ _ [[?n]] _ _ _ _ _ => destruct (index_of n (names sc)) as [i|] eqn:E end.
    + apply index_first in E. eexists _, _, _, _. eapply acts_find; [exact E|]. apply dec_canonical. lia.
    + apply index_none in E. eexists _, _, _, _. now apply acts_find_none.
  - left. eexists _, _, _, _. apply acts_focus. apply dec_canonical. now apply size_nonneg.
  - left. eexists _, _, _, _. eapply acts_set_focus; [exact V|]. apply dec_canonical. exact (size_nonneg _ (size_value_in _ _ V)).
  - left. destruct (without_total x (names sc)) as (r & H). eexists _, _, _, _. eapply acts_remove. exact H.
  - left. eexists _, _, _, _. eapply acts_spawn; eassumption.
  - left. eexists _, _, _, _. eapply acts_pos_at; [exact V|apply moved_pair_is; [assumption|assumption|exact (float_in _ _ V)|reflexivity]|].
    apply pair_text_is; [apply moved_in|apply moved_in|reflexivity].
  - left. eexists _, _, _, _. eapply acts_pos. apply pair_text_is; [assumption|assumption|reflexivity].
  - left. destruct (pair_in _ _ V). eexists _, _, _, _. eapply acts_set_pos; [exact V|]. apply pair_text_is; [assumption|assumption|reflexivity].
  - match goal with V : integers _ ?zs |- _ => destruct (summable_dec zs) as [H|(z & Pz & Nz)] end.
    + left. eexists _, _, _, _. eapply acts_sum; [exact V|exact H|apply P_PropertiesExample.printf_d_canonical].
    + right. eexists. eapply wrong_sum; [exact V|]. intros H. exact (Nz (H z Pz)).
Qed.

Lemma is_implemented : implemented code w_wrong sg catching d commands table acts goes_wrong good world_of.
Proof.
  split.
  - reflexivity.
  - exact agreed.
  - cbn. repeat constructor; cbn; intuition discriminate.
  - intros. now apply exec_acts with (sc := sc).
  - intros. now apply exec_wrong with (sc := sc).
  - intros. now apply acts_total with (overloads := overloads) (Ps := Ps).
Qed.

Lemma first_good : good first_scene.
Proof. split; [apply (size_range p size_t Us); assert (X := size_max_bounds p size_t Us); cbn; lia|]. repeat split; cbn; lia. Qed.
End Usertypes.

(** * C90 *)
Section Theorems.
(** The platform, the names of the integer types, what strtof makes of tiny values, the type that
    std::size_t is, the sign of NaN after an invalid operation, whether char is signed, whether
    exceptions are caught, and how deep commands may nest. *)
Variables (p : platform) (nm : naming) (uf : bool) (size_t : ctype) (nan_sign : bool).
Variables sg catching : bool.
Variable d : nat.
Hypothesis Us : size_type size_t.

Local Notation table := (table p nm uf size_t).
Local Notation acts := (acts p nm uf size_t nan_sign).
Local Notation goes_wrong := (goes_wrong p nm).
Local Notation C := (cfg_classes sg default_cfg).
Local Notation dialogue := (dialogue table acts C).
Local Notation disaster := (disaster table acts goes_wrong C).
Local Notation stuck := (stuck table acts C).
Local Notation session := (UsertypesExample.run p nm uf size_t nan_sign sg catching d).
Local Notation I := (is_implemented p nm uf size_t nan_sign sg catching d Us).
Local Notation world_of := (fun z : scene => World (names z) (focus z) (position z) (velocity z) None).
Local Notation floats := (denotes_value (float_kind uf)).
Local Notation integers := (integers p nm).

Lemma begun : exists s, start sg = Done s /\ serves sg commands (proper p size_t) world_of first_scene s.
Proof. exact (started _ _ sg catching d _ _ _ _ _ _ I first_scene (first_good p size_t Us)). Qed.

(** The replies, and the state after them. *)
Theorem C90_session_iff : forall lines sc rs, Forall no_nul lines ->
  (dialogue first_scene lines sc rs <->
   exists s s' xs, start sg = Done s /\ session s lines = Done (s', xs) /\ map reply xs = rs /\
     s_world s' = World (names sc) (focus sc) (position sc) (velocity sc) None).
Proof.
  intros lines sc rs N. destruct begun as (s & E & R).
  destruct (session_iff _ _ sg catching d _ _ _ _ _ _ I first_scene s lines (world_of sc) rs R N) as [A B]. split.
  - intros D. destruct A as (s' & xs & H); [now exists sc|]. now exists s, s', xs.
  - intros (s0 & s' & xs & E0 & H). rewrite E in E0. injection E0 as <-. destruct B as (sc' & D & X); [now exists s', xs|].
    destruct sc, sc'. cbn in X. injection X as <- <- <- <-. exact D.
Qed.

(** The program ends badly only by the overflow of a sum, or by what C01 is about. *)
Theorem C90_disaster : forall lines s f, Forall no_nul lines -> start sg = Done s ->
  (disaster first_scene lines f -> session s lines = Fault f) /\
  (session s lines = Fault f -> disaster first_scene lines f \/ stuck first_scene lines).
Proof.
  intros lines s f N E. destruct begun as (s0 & E0 & R). rewrite E in E0. injection E0 as <-.
  exact (fault_iff _ _ sg catching d _ _ _ _ _ _ I first_scene s lines f R N).
Qed.

Theorem C90_described : forall lines, Forall no_nul lines ->
  ((exists sc rs, dialogue first_scene lines sc rs) \/ (exists f, disaster first_scene lines f) \/ stuck first_scene lines) /\
  (forall sc rs sc' rs', dialogue first_scene lines sc rs -> dialogue first_scene lines sc' rs' -> rs = rs' /\ sc = sc') /\
  (forall sc rs f, dialogue first_scene lines sc rs -> ~ disaster first_scene lines f).
Proof.
  intros lines N. destruct begun as (s & E & R).
  destruct (not_both _ _ sg catching d _ _ _ _ _ _ I first_scene s lines R N) as (A & _ & D). split; [|split].
  - exact (ExampleProofs.total _ _ sg catching d _ _ _ _ _ _ I lines first_scene s R N).
  - intros sc rs sc' rs' H H'. destruct (A _ _ _ _ H H') as [X Y]. split; [exact X|].
    destruct sc, sc'. cbn in Y. now injection Y as -> -> -> ->.
  - intros sc rs f H. exact (D _ _ _ H).
Qed.

(** ** Entities *)

Lemma canonical_value z z' a : canonical z a -> canonical z' a -> z = z'.
Proof. intros H H'. apply canonical_denotes in H, H'. exact (denotes_det _ _ _ H H'). Qed.
Lemma first_at_unique n l i i' : first_at n l i -> first_at n l i' -> i = i'.
Proof.
  intros H H'. assert (Ni : (0 <= i)%Z) by (destruct H as (? & ? & _ & _ & ->); lia).
  assert (Ni' : (0 <= i')%Z) by (destruct H' as (? & ? & _ & _ & ->); lia).
  rewrite <- (Z2Nat.id i Ni) in H. rewrite <- (Z2Nat.id i' Ni') in H'. apply index_first in H, H'.
  rewrite H in H'. injection H' as E. lia.
Qed.

Lemma find_text sc n nd sc' es ret out : acts sc (lit "entities.find") [[n]] nd sc' es ret out ->
  (exists i a, first_at n (names sc) i /\ canonical i a /\ ret = Some (id_text a)) \/ ~ In n (names sc) /\ ret = Some [].
Proof. intros H. inversion H; subst; [left; eauto|now right]. Qed.

(** A new entity is found under the id that add answered, unless an earlier one has the same name;
    then that one is found. *)
Theorem C90_add_find : forall sc n nd, exists sc' t,
  acts sc (lit "entities.add") [[n]] nd sc' [] (Some t) [] /\
  (acts sc' (lit "entities.find") [[n]] nd sc' [] (Some t) [] <-> ~ In n (names sc)) /\
  (forall r, In n (names sc) ->
     (acts sc' (lit "entities.find") [[n]] nd sc' [] r [] <-> acts sc (lit "entities.find") [[n]] nd sc [] r [])).
Proof.
  intros sc n nd. set (a := dec (Z.of_nat (length (names sc)))).
  assert (Ca : canonical (Z.of_nat (length (names sc))) a) by (apply dec_canonical; lia).
  exists (with_names (names sc ++ [n]) sc), (id_text a). split; [now apply acts_add|]. split; [split|].
  - intros H J. apply find_text in H. cbn [names with_names] in H. destruct H as [(i & b & Fi & Cb & E)|[N _]].
    + injection E as E. apply app_inv_tail in E. subst b. assert (X := canonical_value _ _ _ Ca Cb). subst i.
      destruct Fi as (x & y & Ex & Nx & L). apply Nat2Z.inj in L.
      assert (Y : names sc = x).
      { assert (Ly := f_equal (@List.length _) Ex). rewrite !app_length in Ly. cbn [List.length] in Ly.
        destruct y as [|? ?]; [|cbn [List.length] in Ly; lia]. now apply app_inj_tail in Ex. }
      rewrite Y in J. exact (Nx J).
    + apply N. apply in_or_app. right. now left.
  - intros N. eapply acts_find; [|exact Ca]. exists (names sc), []. auto.
  - intros r J.
    assert (Same : forall i, first_at n (names sc ++ [n]) i <-> first_at n (names sc) i).
    { assert (Up : forall i, first_at n (names sc) i -> first_at n (names sc ++ [n]) i).
      { intros i (x & y & -> & Nx & ->). exists x, (y ++ [n]). rewrite <- app_assoc. auto. }
      intros i. split; [|apply Up]. intros H. destruct (index_of n (names sc)) as [k|] eqn:E.
      - apply index_first in E. rewrite (first_at_unique _ _ _ _ H (Up _ E)). exact E.
      - apply index_none in E. contradiction. }
    split; intros H; apply find_text in H; cbn [names with_names] in H; destruct H as [(i & b & Fi & Cb & ->)|[N _]].
    + eapply acts_find; [|exact Cb]. now apply Same.
    + elim N. apply in_or_app. now left.
    + eapply acts_find; [|exact Cb]. cbn [names with_names]. now apply Same.
    + contradiction.
Qed.

Lemma without_in v l r : without v l r -> forall n, In n r <-> In n l /\ ~ In n v.
Proof.
  induction 1 as [|x l r J H IH|x l r J H IH]; intros n; cbn [In].
  - tauto.
  - rewrite IH. split; [tauto|]. intros [[->|A] B]; [contradiction|tauto].
  - rewrite IH. split; [|tauto]. intros [->|A]; tauto.
Qed.

(** After remove_some exactly the given names, and those that did not exist, are not found; the rest
    of the state is as before. *)
Theorem C90_remove_find : forall sc v nd, exists sc',
  acts sc (lit "entities.remove_some") [v] nd sc' [] None [] /\
  (forall n, acts sc' (lit "entities.find") [[n]] nd sc' [] (Some []) [] <-> In n v \/ ~ In n (names sc)) /\
  focus sc' = focus sc /\ position sc' = position sc /\ velocity sc' = velocity sc.
Proof.
  intros sc v nd. destruct (without_total v (names sc)) as (l & H). exists (with_names l sc).
  split; [now apply acts_remove|]. split; [|auto]. intros n. assert (X := without_in _ _ _ H n). split.
  - intros A. apply find_text in A. cbn [names with_names] in A. destruct A as [(i & b & _ & _ & E)|[N _]]; [discriminate E|].
    destruct (in_dec (list_eq_dec ascii_dec) n v) as [J|J]; [now left|right]. intros K. apply N, X. now split.
  - intros Y. apply acts_find_none. cbn [names with_names]. rewrite X. tauto.
Qed.

(** Removing others may change the id under which an entity is found. *)
Definition C90_ids_full_statement : Prop :=
  forall sc v n nd sc' t, ~ In n v -> acts sc (lit "entities.remove_some") [v] nd sc' [] None [] ->
    acts sc (lit "entities.find") [[n]] nd sc [] (Some t) [] -> acts sc' (lit "entities.find") [[n]] nd sc' [] (Some t) [].
Theorem C90_ids_refuted : ~ C90_ids_full_statement.
Proof.
  intros H. set (sc := with_names [lit "a"; lit "b"] first_scene).
  assert (X : acts (with_names [lit "b"] sc) (lit "entities.find") [[lit "b"]] [] (with_names [lit "b"] sc) [] (Some (id_text (lit "1"))) []).
  { apply (H sc [lit "a"] (lit "b") []).
    - cbn. intuition discriminate.
    - apply acts_remove. cbn. repeat constructor; cbn; intuition discriminate.
    - eapply acts_find; [|apply (dec_canonical 1); lia]. exists [lit "a"], []. cbn. intuition discriminate. }
  apply find_text in X. cbn [names with_names] in X. destruct X as [(i & b & Fi & Cb & E)|[N _]]; [|apply N; now left].
  injection E as E. apply (app_inv_tail [_] [_] b) in E. subst b. assert (Y : (1 = i)%Z) by (eapply canonical_value; [apply (dec_canonical 1); lia|exact Cb]).
  assert (Z0 : first_at (lit "b") [lit "b"] 0) by (exists [], []; cbn; intuition discriminate).
  assert (W := first_at_unique _ _ _ _ Fi Z0). lia.
Qed.

(** ** Particles *)

Definition finite (x : fval) : Prop := exists q, stands_for x q.
Lemma still x v t : value_in binary32 x -> value_in binary32 v -> ~ zero x -> finite v -> zero t ->
  fadd nan_sign x (fmul nan_sign v t) = x.
Proof.
  intros X V Nz (q & Q) (s & e & ->). destruct v as [s' m e'|s'|s']; try (inversion Q; fail).
  assert (E : fmul nan_sign (Fin s' m e') (Fin s 0 e) = Fin (xorb s' s) 0 (emin binary32)).
  { cbn [fmul]. unfold rounded. assert (L : Qle_bool (dyadic m e' * dyadic 0 e) 0 = true).
    { apply Qle_bool_iff. unfold dyadic at 2. setoid_replace (dyadic m e' * (inject_Z 0 * 2 ^ e))%Q with 0%Q by ring. apply Qle_refl. }
    now rewrite L. }
  rewrite E. now apply fadd_zero.
Qed.

(** At time zero a particle with a finite velocity is where it was spawned; the components of the
    place are not zeros, whose sign may change. *)
Theorem C90_start : forall sc nd v w u x y t,
  denotes_pair uf v x -> denotes_pair uf w y -> floats u t -> zero t ->
  ~ zero (fst x) -> ~ zero (snd x) -> finite (fst y) -> finite (snd y) ->
  exists sc', acts sc (lit "particles.spawn") [v; w] nd sc' [] None [] /\ position sc' = x /\
    forall r, acts sc' (lit "particles.get_pos_at") [u] nd sc' [] r [] <->
              acts sc' (lit "particles.last_particle_pos") [] nd sc' [] r [].
Proof.
  intros sc nd v w u x y t V W U T Nx Ny Fx Fy. exists (Scene (names sc) (focus sc) x y).
  destruct (pair_in uf v x V) as [Xa Xb], (pair_in uf w y W) as [Ya Yb]. assert (Ti := float_in uf u t U).
  split; [now apply acts_spawn|]. split; [reflexivity|]. intros r.
  assert (M : forall z, moved_pair nan_sign x y t z <-> z = x).
  { intros z. rewrite moved_pair_is by assumption. unfold vec_plus, vec_times. cbn [fst snd].
    rewrite !still by assumption. now rewrite <- surjective_pairing. }
  split; intros A; inversion A; subst; cbn [names focus position velocity] in *.
  - match goal with V' : denotes_value _ u ?t', K : moved_pair _ _ _ ?t' ?z, P : pair_text ?z _ |- _ =>
      assert (E : t' = t) by (apply (proj1 (float_implements uf)) in V', U; congruence); rewrite E in K; apply M in K; subst z;
      apply acts_pos; exact P end.
  - eapply acts_pos_at; [exact U|apply M; reflexivity|assumption].
Qed.

(** ** Sums *)

Lemma total_perm l l' : Permutation l l' -> total l = total l'.
Proof. induction 1; cbn in *; unfold UsertypesExampleSpec.total in *; lia. Qed.

Lemma sum_inv sc v nd sc' es ret out zs : integers v zs -> acts sc (lit "sum") [v] nd sc' es ret out ->
  summable zs /\ exists a, ret = Some a /\ canonical (total zs) a.
Proof.
  intros V A. inversion A; subst. match goal with V' : UsertypesExampleSpec.integers _ _ v ?zs' |- _ => assert (E : zs' = zs) end.
  { match goal with V' : UsertypesExampleSpec.integers _ _ v _ |- _ => apply ints_value in V', V; congruence end. }
  subst. eauto.
Qed.

(** The order of the numbers does not matter for the answer. *)
Theorem C90_sum_order : forall sc nd v v' a, Permutation v v' ->
  acts sc (lit "sum") [v] nd sc [] (Some a) [] ->
  acts sc (lit "sum") [v'] nd sc [] (Some a) [] \/ goes_wrong sc (lit "sum") [v'] nd Overflow.
Proof.
  intros sc nd v v' a P A. inversion A; subst. match goal with V : UsertypesExampleSpec.integers _ _ v ?zs |- _ =>
    destruct (Permutation_Forall2 P V) as (zs' & P' & V'); fold (integers v' zs') in V' end.
  destruct (summable_dec zs') as [S|(s & Ps & Ns)].
  - left. eapply acts_sum; [exact V'|exact S|]. now rewrite <- (total_perm _ _ P').
  - right. eapply wrong_sum; [exact V'|]. intros S. exact (Ns (S s Ps)).
Qed.

(** But it matters for whether there is one. *)
Theorem C90_sum_order_refuted : exists v v', Permutation v v' /\
  forall sc nd, acts sc (lit "sum") [v] nd sc [] (Some (lit "2147483647")) [] /\ goes_wrong sc (lit "sum") [v'] nd Overflow.
Proof.
  exists [lit "2147483647"; lit "-1"; lit "1"], [lit "2147483647"; lit "1"; lit "-1"].
  split; [apply perm_skip, perm_swap|]. intros sc nd. split.
  - eapply (acts_sum _ _ _ _ _ _ _ _ [2147483647; -1; 1]%Z).
    + apply ints_value. destruct p as [[|] [|]]; vm_compute; reflexivity.
    + exact (proj2 (proj1 (C76_sum_iff [2147483647; -1; 1]%Z 2147483647%Z) eq_refl)).
    + apply (dec_canonical 2147483647). lia.
  - eapply (wrong_sum _ _ _ _ _ [2147483647; 1; -1]%Z).
    + apply ints_value. destruct p as [[|] [|]]; vm_compute; reflexivity.
    + intros S. destruct (proj1 (C76_sum_fault_iff [2147483647; 1; -1]%Z Overflow) eq_refl) as (_ & s & Ps & Ns). exact (Ns (S s Ps)).
Qed.

Lemma total_app a b : total (a ++ b) = (total a + total b)%Z.
Proof. unfold UsertypesExampleSpec.total. induction a as [|x a IH]; cbn [app fold_right]; lia. Qed.
Lemma total_nonneg l : Forall (fun z => 0 <= z)%Z l -> (0 <= total l)%Z.
Proof. unfold UsertypesExampleSpec.total. induction 1; cbn [fold_right]; lia. Qed.

(** Numbers that are not negative are summed up just when their sum is an int. *)
Theorem C90_sum_nonneg : forall sc nd v zs, integers v zs -> Forall (fun z => 0 <= z)%Z zs ->
  ((exists a, canonical (total zs) a /\ acts sc (lit "sum") [v] nd sc [] (Some a) []) <-> int_range (total zs)) /\
  ((exists f, goes_wrong sc (lit "sum") [v] nd f) <-> ~ int_range (total zs)).
Proof.
  intros sc nd v zs V N.
  assert (G : summable zs <-> int_range (total zs)).
  { split.
    - intros S. assert (X : zs = [] \/ exists t z, zs = t ++ [z]) by (clear; induction zs using rev_ind; eauto).
      destruct X as [->|(t & z & ->)]; [unfold int_range; cbn; lia|]. apply S. exists t, z, []. auto.
    - intros T s (a & x & b & -> & ->). fold (total (a ++ [x])). change (a ++ x :: b) with (a ++ [x] ++ b) in *.
      rewrite app_assoc in N, T. rewrite total_app in T. apply Forall_app in N. destruct N as [N1 N2].
      apply total_nonneg in N1, N2. unfold int_range in *. lia. }
  split.
  - rewrite <- G. split; [intros (a & _ & A); now apply (sum_inv _ _ _ _ _ _ _ _ V A)|]. intros S.
    exists (printf_d (total zs)). split; [apply P_PropertiesExample.printf_d_canonical|].
    eapply acts_sum; [exact V|exact S|apply P_PropertiesExample.printf_d_canonical].
  - rewrite <- G. split; [intros (f & A) S|].
    + inversion A; subst. match goal with V' : UsertypesExampleSpec.integers _ _ v ?z, K : ~ summable ?z |- _ =>
        apply ints_value in V', V; rewrite V in V'; injection V' as <-; exact (K S) end.
    + intros S. exists Overflow. now apply (wrong_sum _ _ _ _ _ zs).
Qed.
End Theorems.

(** ** Examples *)

Definition ex_session (l : list string) : outcome (list (list bytes * option bytes * bytes) * world) :=
  s <- start true ;;
  r <- UsertypesExample.run ex_platform ex_naming true CULong true true true 3 s (map lit l) ;;
  Done (map reply (snd r), s_world (fst r)).
Definition ex_one : fval := Fin false (2 ^ 23) (-23).
Definition ex_zero : fval := Fin false 0 (-149).

(** The commands of UsertypesExample.cpp:221-241. *)
Definition ex_commands : list string :=
  ["entities.add player"; "entities.add coop_player"; "entities.add enemy"; "entities.focused_entity";
   "entities.find coop_player"; "entities.focused_entity 1"; "particles.spawn (1, 1) (0.1, 0.1)";
   "particles.get_pos_at 0.5"; "particles.last_particle_pos (1.5, 1.5)"; "particles.last_particle_pos";
   "sum 1"; "sum 1,2,3"; "sum (1 2 3 4 5)"; "particles.last_particle_pos (one 2)"; "particles.last_particle_pos (1 two)";
   "sum (one two)"]%string.
Definition ex_replies : list (list bytes * option bytes * bytes) :=
  [([], Some (lit "EntityId{0}"), []); ([], Some (lit "EntityId{1}"), []); ([], Some (lit "EntityId{2}"), []);
   ([], Some (lit "EntityId{0}"), []); ([], Some (lit "EntityId{1}"), []); ([], Some (lit "EntityId{1}"), []);
   ([], None, []); ([], Some (lit "(1.050000, 1.050000)"), []); ([], Some (lit "(1.500000, 1.500000)"), []);
   ([], Some (lit "(1.500000, 1.500000)"), []); ([], Some (lit "1"), []); ([], Some (lit "6"), []); ([], Some (lit "15"), []);
   ([lit "Unable to convert 'one 2' to type 'Vec2': Unable to convert 'one' to type 'float'"], None, []);
   ([lit "Unable to convert '1 two' to type 'Vec2': Unable to convert 'two' to type 'float'"], None, []);
   ([lit "Unable to convert 'one two' to type 'DynamicArray<int>': Unable to convert 'one' to type 'int'"], None, [])].
Definition ex_tenth : fval := Fin false 13421773 (-27).
Definition ex_half : fval := Fin false 12582912 (-23).
Definition ex_scene : scene :=
  Scene [lit "player"; lit "coop_player"; lit "enemy"] 1 (ex_half, ex_half) (ex_tenth, ex_tenth).
Definition ex_world (sc : scene) : world := World (names sc) (focus sc) (position sc) (velocity sc) None.
Example C90_ex_run : ex_session ex_commands = Done (ex_replies, ex_world ex_scene).
Proof. vm_compute. reflexivity. Qed.

Definition ex_more_commands : list string :=
  ["entities.add a"; "entities.add b"; "entities.add a"; "entities.find b"; "entities.find a"; "entities.remove_some (a c)";
   "entities.find b"; "entities.find a"; "entities.focused_entity 7"; "entities.focused_entity -1"; "entities.remove_some b"]%string.
Definition ex_more_scene : scene := Scene [] 7 (ex_zero, ex_zero) (ex_zero, ex_zero).
Example C90_ex_more : ex_session ex_more_commands =
  Done ([([], Some (lit "EntityId{0}"), []); ([], Some (lit "EntityId{1}"), []); ([], Some (lit "EntityId{2}"), []);
         ([], Some (lit "EntityId{1}"), []); ([], Some (lit "EntityId{0}"), []); ([], None, []);
         ([], Some (lit "EntityId{0}"), []); ([], Some [], []); ([], Some (lit "EntityId{7}"), []);
         ([lit "Unable to convert '-1' to type 'EntityId': Unable to convert '-1' to type 'unsigned long'"], None, []);
         ([], None, [])], ex_world ex_more_scene).
Proof. vm_compute. reflexivity. Qed.

(** A particle of infinite velocity is nowhere at time zero; negative zeros lose their sign. *)
Example C90_ex_start : ex_session ["particles.spawn (2, 3) (inf, 1)"; "particles.get_pos_at 0"; "particles.spawn (-0, -2) (1, 1)";
    "particles.last_particle_pos"; "particles.get_pos_at 0"]%string =
  Done ([([], None, []); ([], Some (lit "(-nan, 3.000000)"), []); ([], None, []);
         ([], Some (lit "(-0.000000, -2.000000)"), []); ([], Some (lit "(0.000000, -2.000000)"), [])],
        ex_world (Scene [] 0 (Fin true 0 (-149), Fin true (2 ^ 23) (-22)) (ex_one, ex_one))).
Proof. vm_compute. reflexivity. Qed.

(** Undefined behaviour. *)
Example C90_ex_overflow : ex_session ["entities.add a"; "sum 2147483647,1,-1"; "entities.add b"]%string = Fault Overflow.
Proof. vm_compute. reflexivity. Qed.

Lemma ran {A B C D E} (st : outcome A) (go : A -> outcome (B * C)) (f : C -> D) (g : B -> E) s r w :
  (s0 <- st ;; x <- go s0 ;; Done (f (snd x), g (fst x))) = Done (r, w) -> st = Done s ->
  exists s' xs, go s = Done (s', xs) /\ f xs = r /\ g s' = w.
Proof.
  intros X ->. cbn [bind] in X. destruct (go s) as [[s' xs]|?]; [|discriminate X]. cbn [bind fst snd] in X.
  injection X as <- <-. now exists s', xs.
Qed.
Lemma ex_done l r w s : ex_session l = Done (r, w) -> start true = Done s ->
  exists s' xs, UsertypesExample.run ex_platform ex_naming true CULong true true true 3 s (map lit l) = Done (s', xs) /\
    map reply xs = r /\ s_world s' = w.
Proof.
  exact (ran (start true) (fun s => UsertypesExample.run ex_platform ex_naming true CULong true true true 3 s (map lit l))
             (map reply) s_world s r w).
Qed.

Local Notation ex_classes := (cfg_classes true default_cfg).
Local Notation ex_table := (table ex_platform ex_naming true CULong).
Local Notation ex_acts := (acts ex_platform ex_naming true CULong true).
Lemma ex_size : size_type CULong.
Proof. right. now left. Qed.
Lemma ex_dialogue l r sc : Forall no_nul (map lit l) -> ex_session l = Done (r, ex_world sc) ->
  dialogue ex_table ex_acts ex_classes first_scene (map lit l) sc r.
Proof.
  intros N X. apply (C90_session_iff ex_platform ex_naming true CULong true true true 3 ex_size); [exact N|].
  destruct (begun ex_platform ex_naming true CULong true true true 3 ex_size) as (s & E & _). exists s.
  destruct (ex_done _ _ _ s X E) as (s' & xs & H). exists s', xs. split; [exact E|exact H].
Qed.
Example C90_ex_dialogue : dialogue ex_table ex_acts ex_classes first_scene (map lit ex_commands) ex_scene ex_replies.
Proof.
  apply ex_dialogue; [|exact C90_ex_run]. unfold ex_commands. cbn [map]. repeat constructor; vm_compute; intuition discriminate.
Qed.

(** The hypotheses of C90_start and C90_sum_nonneg. *)
Example C90_ex_pair : denotes_pair true [lit "1"; lit "1"] (ex_one, ex_one) /\ ~ zero (fst (ex_one, ex_one)) /\ finite ex_one.
Proof.
  split; [|split].
  - apply (pair_value true (lit "Vec2")). vm_compute. reflexivity.
  - intros (s & e & X). discriminate X.
  - exists (dyadic (2 ^ 23) (-23)). apply stands_signed. reflexivity.
Qed.
Example C90_ex_zero : denotes_value (float_kind true) [lit "0"] ex_zero /\ zero ex_zero.
Proof. split; [apply (proj1 (float_implements true)); vm_compute; reflexivity|now exists false, (-149)%Z]. Qed.
Example C90_ex_integers : integers ex_platform ex_naming [lit "1"; lit "2147483646"] [1; 2147483646]%Z /\ int_range (total [1; 2147483646]%Z).
Proof. split; [apply ints_value; vm_compute; reflexivity|unfold int_range; cbn; lia]. Qed.

(** * Assumptions *)
Print Assumptions C90_session_iff.
Print Assumptions C90_disaster.
Print Assumptions C90_described.
Print Assumptions C90_add_find.
Print Assumptions C90_remove_find.
Print Assumptions C90_ids_refuted.
Print Assumptions C90_start.
Print Assumptions C90_sum_order.
Print Assumptions C90_sum_order_refuted.
Print Assumptions C90_sum_nonneg.
