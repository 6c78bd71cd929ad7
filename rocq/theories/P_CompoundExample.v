(** C91: the commands of examples/compound. *)
From Coq Require Import Ascii String NArith ZArith QArith Qabs Qpower Lqa Bool PeanoNat Lia Permutation List.
Import ListNotations.
From Verif Require Import Util Base LexerSpec StringConv StringConvSpec StringConvProofs SerializerSpec Serializer
  SerializerProofs Lexer LexerMeta LexerProofs LexerMore P_Lexer P_StringConv P_Serializer UMap Exec ExecSpec ExecProofs P_Exec
  FloatConv FloatConvSpec FloatSerializer P_FloatSerializer P_Float FloatRound FloatConvProofs UserTypes UserTypesSpec UserTypesProofs P_UserTypes
  FloatOps FloatOpsSpec FloatOpsProofs FloatSum FloatSumSpec FloatSumProofs FloatTextSpec FloatTextProofs P_FloatText
  NamedExample NamedExampleSpec NamedExampleProofs
  ExampleSession ExampleSpec ExampleProofs ExampleMore CompoundExample CompoundExampleSpec.
From Verif Require AdvancedExampleProofs.

Local Notation length := List.length.
Local Open Scope nat_scope.

Definition particle_of (b : body) : particle := Particle (called b) (at_ b) (speed b).
Definition body_of (q : particle) : body := Body (pt_id q) (pt_position q) (pt_velocity q).
Lemma of_of l : map particle_of (map body_of l) = l.
Proof. rewrite map_map. erewrite map_ext; [apply map_id|]. now intros []. Qed.
Lemma of_of' l : map body_of (map particle_of l) = l.
Proof. rewrite map_map. erewrite map_ext; [apply map_id|]. now intros []. Qed.

(** ** Finding *)

Lemma found n l : forall b, first_called n l b -> find_particle n (map particle_of l) = Some (particle_of b).
Proof.
  intros b (x & y & -> & <- & N). induction x as [|a x IH]; cbn [app map find_particle pt_id particle_of].
  - now rewrite bytes_eqb_refl.
  - destruct (bytes_eqb_spec (called a) (called b)) as [E|E]; [elim N; left; exact E|]. apply IH. intros J. apply N. now right.
Qed.
Lemma not_found n l : ~ In n (map called l) -> find_particle n (map particle_of l) = None.
Proof.
  intros N. induction l as [|a l IH]; cbn [map find_particle pt_id particle_of]; [reflexivity|].
  destruct (bytes_eqb_spec (called a) n) as [E|E]; [elim N; left; exact E|]. apply IH. intros J. apply N. now right.
Qed.
Lemma known n l : (exists b, first_called n l b) \/ ~ In n (map called l).
Proof.
  induction l as [|a l IH]; [right; intros []|]. destruct (bytes_eqb_spec (called a) n) as [E|E].
  - left. exists a, [], l. split; [reflexivity|]. split; [exact E|intros []].
  - destruct IH as [(b & x & y & -> & C & N)|N].
    + left. exists b, (a :: x), y. split; [reflexivity|]. split; [exact C|]. intros [J|J]; [now apply E|now apply N].
    + right. intros [J|J]; [now apply E|now apply N].
Qed.
Lemma first_in n l b : first_called n l b -> In b l.
Proof. intros (x & y & -> & _). apply in_or_app. right. now left. Qed.
Lemma first_name n l b : first_called n l b -> In n (map called l).
Proof. intros F. assert (J := first_in _ _ _ F). destruct F as (x & y & _ & <- & _). now apply in_map. Qed.
Lemma first_unique n l b b' : first_called n l b -> first_called n l b' -> b = b'.
Proof. intros F F'. apply found in F, F'. rewrite F in F'. injection F' as A B C. destruct b, b'. cbn in *. now subst. Qed.

(** ** Texts *)

Lemma plain_no_nul t : plain t -> no_nul t.
Proof. intros P J. unfold plain in P. rewrite forallb_forall in P. specialize (P _ J). vm_compute in P. discriminate P. Qed.
Lemma general_is x t : value_in binary32 x -> (shows_general x t <-> t = printf_g x).
Proof. intros V. rewrite <- (C87_general_iff binary32 x t V). split; now intros ->. Qed.
Lemma point_is x t : floats2 x -> (point_text x t <-> t = UserTypes.point_text x).
Proof.
  intros [A B]. unfold point_text, UserTypes.point_text. split.
  - intros (a & b & Sa & Sb & ->). apply general_is in Sa, Sb; auto. now rewrite Sa, Sb.
  - intros ->. exists (printf_g (fst x)), (printf_g (snd x)). split; [now apply general_is|]. split; [now apply general_is|reflexivity].
Qed.
Lemma point_no_nul x : floats2 x -> c_str (UserTypes.point_text x) = UserTypes.point_text x.
Proof.
  intros [A B]. apply c_str_no_nul. unfold UserTypes.point_text.
  destruct (printf_g_plain _ A) as [Pa _], (printf_g_plain _ B) as [Pb _]. apply plain_no_nul in Pa, Pb.
  repeat apply no_nul_app; try assumption; now apply no_nul_lit.
Qed.
Definition fine (b : body) : Prop := floats2 (at_ b) /\ floats2 (speed b).
Lemma body_is b t : fine b -> (body_text b t <-> t = particle_text (called b) (at_ b) (speed b)).
Proof.
  intros [A B]. unfold body_text, particle_text. split.
  - intros (x & v & X & V & ->). apply point_is in X, V; auto. now rewrite X, V.
  - intros ->. exists (UserTypes.point_text (at_ b)), (UserTypes.point_text (speed b)).
    split; [now apply point_is|]. split; [now apply point_is|reflexivity].
Qed.
Lemma rows_is l : Forall fine l -> forall r,
  rows l r <-> r = List.concat (map (fun b => particle_line (particle_of b) ++ [nl]) l).
Proof.
  induction 1 as [|b l [A B] F IH]; intros r; cbn [map List.concat].
  - split; [now inversion 1|intros ->; constructor].
  - unfold particle_line. cbn [pt_id pt_position pt_velocity particle_of]. rewrite (point_no_nul _ A), (point_no_nul _ B). split.
    + inversion 1; subst. match goal with H : before_nul _ _, X : point_text (at_ b) _, V : point_text (speed b) _, T : tabulated _ _, R : rows l _ |- _ =>
        rewrite <- (before_nul_det _ _ H); apply (point_is _ _ A) in X; apply (point_is _ _ B) in V; subst; apply AdvancedExampleProofs.tab3 in T;
        apply IH in R; subst end. now rewrite <- !app_assoc.
    + intros ->. rewrite <- (app_assoc _ [nl]). cbn [app]. eapply rows_more; [apply before_nul_c_str|now apply point_is|now apply point_is| |now apply IH].
      now apply AdvancedExampleProofs.tab3.
Qed.
Lemma head_is t : head t <-> t = (lit "ID" ++ tab :: lit "Pos" ++ tab :: lit "Vel") ++ nl :: (lit "--" ++ tab :: lit "---" ++ tab :: lit "---") ++ [nl].
Proof.
  unfold head. cbn [map]. split.
  - intros (a & b & A & B & ->). apply AdvancedExampleProofs.tab3 in A, B. now rewrite A, B.
  - intros ->. eexists _, _. split; [now apply AdvancedExampleProofs.tab3|]. split; [now apply AdvancedExampleProofs.tab3|reflexivity].
Qed.

Lemma pi_is x : nearest_float false (314 # 100) x <-> x = nearly_pi.
Proof.
  assert (H : nearest_float false (314 # 100) nearly_pi).
  { constructor.
    - unfold too_large. intros T. apply Qle_bool_iff in T. vm_compute in T. discriminate T.
    - destruct (round_fmt_spec binary32 (314 # 100) 13170115%Z (-22)%Z binary32_sane) as (_ & N & _);
        [reflexivity|now vm_compute|]. apply N. cbn. lia. }
  assert (P : (0 <= 314 # 100)%Q) by discriminate. apply (rounded_nearest false (314 # 100) _ P) in H. split.
  - intros X. apply (rounded_nearest false (314 # 100) _ P) in X. congruence.
  - intros ->. now apply (rounded_nearest false (314 # 100) _ P).
Qed.

Section Compound.
Variables (uf : bool) (point_name particle_name : bytes) (nan_sign : bool).
Variables sg catching : bool.
Variable d : nat.
Hypothesis Np : no_nul point_name.

Local Notation code := (code uf point_name particle_name nan_sign).
Local Notation table := (table uf point_name).
Local Notation acts := (acts uf nan_sign).
Local Notation good := proper.
Local Notation world_of := (fun z : scene => World (map particle_of (bodies z)) (pivot z)).
Local Notation serves := (serves sg commands good world_of).
Local Notation run := (run_prog sg (nested_exec code sg catching d)).
Local Notation exec := (exec_input code sg catching d).
Local Notation Fi := (float_implements uf).
Local Notation floats := (denotes_value (float_kind uf)).
Local Notation numbers := (numbers uf).
Local Notation maybe := (maybe uf).

(** ** The parameters *)

Lemma point_value v x : from_value (point_serializer uf point_name) v = Value x <-> denotes_pair uf v x.
Proof. apply pair_value. Qed.
Lemma point_fits : fits (point_serializer uf point_name) (point_param uf point_name).
Proof.
  split; cbn [p_ok p_bad point_param p_type].
  - intros v. split; intros (x & H); exists x; now apply point_value.
  - intros v e N. apply (C76_pair_error_iff uf point_name v e Np N).
Qed.

Lemma word_value s (x : fval) : from_value (float_ser uf) [s] = Value x <-> k_word (float_kind uf) s x.
Proof.
  split.
  - intros E. apply (proj1 Fi) in E. destruct E as (s' & [= <-] & W). exact W.
  - intros W. apply (proj1 Fi). now exists s.
Qed.
Lemma float_name : tname (float_ser uf) = lit "float". Proof. reflexivity. Qed.
Lemma float_bad s c : no_nul s -> from_value (float_ser uf) [s] = Error c -> c <> [] /\ no_nul c.
Proof.
  intros N E. apply float_ser_error in E; [|exact N]. destruct E as [_ Ce].
  assert (Nv : value_no_nul [s]) by now intros ? [<-|[]]. assert (Nf : no_nul (lit "float")) by now apply no_nul_lit.
  exact (error_text_ok _ _ None _ Nf Nv Logic.I Ce).
Qed.
Lemma numbers_value v (xs : list fval) : from_value (vector_serializer (float_ser uf)) v = Value xs <-> numbers v xs.
Proof.
  rewrite C17_vector_accept_iff. unfold CompoundExampleSpec.numbers.
  split; intros H; induction H as [|s z v xs E H IH]; constructor; try exact IH; now apply word_value.
Qed.
Lemma numbers_fits : fits (vector_serializer (float_ser uf)) (numbers_param uf).
Proof.
  split; cbn [p_ok p_bad numbers_param p_type].
  - intros v. split; intros (x & H); exists x; now apply numbers_value.
  - intros v e N.
    assert (Ns : forall s, In s v -> value_no_nul [s]) by (intros s J s' [<-|[]]; now apply N).
    assert (Er : forall s e0, In s v -> from_value (float_ser uf) [s] = Error e0 -> e0 <> [] /\ no_nul e0).
    { intros s e0 J. apply float_bad. now apply N. }
    refine (iff_trans (C17_vector_error_iff (float_ser uf) v e ltac:(now apply no_nul_lit) N Er) _). split.
    + intros (pre & s & post & c & -> & Hp & Es & Ce).
      assert (X : exists xs, numbers pre xs).
      { clear - Hp. induction pre as [|x pre IH]; [exists []; constructor|]. destruct IH as (zs & H); [intros s J; apply Hp; now right|].
        destruct (Hp x (or_introl eq_refl)) as (z & E). exists (z :: zs). constructor; [now apply word_value|exact H]. }
      destruct X as (zs & Hz). exists pre, s, post, zs, c. split; [reflexivity|]. split; [exact Hz|]. split; [|exact Ce].
      apply (proj2 Fi); [|exact Es]. apply Ns. apply in_or_app. right. now left.
    + intros (pre & s & post & zs & c & -> & Hz & Cm & Ce). exists pre, s, post, c. split; [reflexivity|]. split; [|split; [|exact Ce]].
      * clear - Hz. induction Hz as [|x z pre zs W H IH]; [intros ? []|]. intros s' [<-|J]; [exists z; now apply word_value|now apply IH].
      * apply (proj2 Fi) in Cm; [exact Cm|]. apply Ns. apply in_or_app. right. now left.
Qed.

Lemma maybe_value v o : from_value (optional_serializer (float_ser uf)) v = Value o <-> maybe v o.
Proof.
  rewrite C18_optional_exact. destruct o as [x|].
  - split.
    + intros (s & r & -> & N & E). constructor; [exact N|now apply word_value].
    + intros M. inversion M; subst. eexists _, _. split; [reflexivity|]. split; [assumption|now apply word_value].
  - split.
    + intros [->|(r & ->)]; constructor.
    + intros M. inversion M; subst; [now left|right; eauto].
Qed.
Lemma maybe_fits : fits (optional_serializer (float_ser uf)) (maybe_param uf).
Proof.
  split; cbn [p_ok p_bad maybe_param p_type].
  - intros v. split; intros (x & H); exists x; now apply maybe_value.
  - intros v e N.
    assert (Er : forall s e0, In s v -> from_value (float_ser uf) [s] = Error e0 -> e0 <> [] /\ no_nul e0).
    { intros s e0 J. apply float_bad. now apply N. }
    refine (iff_trans (C18_optional_error_iff (float_ser uf) v e ltac:(now apply no_nul_lit) N Er) _).
    split; intros (s & r & c & -> & Ns & Ec & Ce); exists s, r, c; (split; [reflexivity|]); (split; [exact Ns|]); (split; [|exact Ce]);
      (apply (proj2 Fi); [intros ? [<-|[]]; apply N; now left|exact Ec]).
Qed.

Lemma agreed : Forall2 (agree code) commands table.
Proof.
  assert (Ff : fits (float_ser uf) (float_param uf)) by exact (implements_fits _ _ Fi).
  assert (Ft : fits string_serializer text_param) by exact (implements_fits _ _ text_implements).
  assert (A := point_fits). assert (B := numbers_fits). assert (C := maybe_fits).
  repeat apply Forall2_cons; try apply Forall2_nil; (split; [reflexivity|]); (split; [discriminate|]);
    (split; [cbn; repeat constructor; cbn; intuition discriminate|]); cbn [snd];
    repeat first [assumption|apply Forall2_cons|apply Forall2_nil].
Qed.

Lemma text_one t : converts [string_serializer] [[t]] ((t, tt) : args_of [string_serializer]).
Proof. apply converts_cons; [reflexivity|constructor]. Qed.
Lemma float_one v (t : fval) : floats v t -> converts [float_ser uf] [v] ((t, tt) : args_of [float_ser uf]).
Proof. intros H. apply converts_cons; [now apply (proj1 Fi)|constructor]. Qed.
Lemma point_one v (x : fval * fval) : denotes_pair uf v x ->
  converts [point_serializer uf point_name] [v] ((x, tt) : args_of [point_serializer uf point_name]).
Proof. intros H. apply converts_cons; [now apply point_value|constructor]. Qed.
Lemma three n v w (x y : fval * fval) : denotes_pair uf v x -> denotes_pair uf w y ->
  converts [string_serializer; point_serializer uf point_name; point_serializer uf point_name] [[n]; v; w]
    ((n, (x, (y, tt))) : args_of [string_serializer; point_serializer uf point_name; point_serializer uf point_name]).
Proof. intros H K. apply converts_cons; [reflexivity|]. apply converts_cons; [now apply point_value|now apply point_one]. Qed.
Lemma numbers_one v (xs : list fval) : numbers v xs ->
  converts [vector_serializer (float_ser uf)] [v] ((xs, tt) : args_of [vector_serializer (float_ser uf)]).
Proof. intros H. apply converts_cons; [now apply numbers_value|constructor]. Qed.
Lemma maybe_one v (o : option fval) : maybe v o ->
  converts [optional_serializer (float_ser uf)] [v] ((o, tt) : args_of [optional_serializer (float_ser uf)]).
Proof. intros H. apply converts_cons; [now apply maybe_value|constructor]. Qed.

Lemma word_in s x : k_word (float_kind uf) s x -> value_in binary32 x.
Proof. intros V. exact (value_in_conversion uf s x V). Qed.
Lemma float_in v t : floats v t -> value_in binary32 t.
Proof. intros (w & _ & V). exact (word_in w t V). Qed.
Lemma pair_in v x : denotes_pair uf v x -> floats2 x.
Proof. intros (a & b & _ & A & B). split; [exact (value_in_conversion uf a _ A)|exact (value_in_conversion uf b _ B)]. Qed.
Lemma maybe_in v x : maybe v (Some x) -> value_in binary32 x.
Proof. intros M. inversion M; subst. eapply word_in. eassumption. Qed.

Lemma moved_is x v t y : value_in binary32 v -> value_in binary32 t ->
  (moved nan_sign x v t y <-> y = fadd nan_sign x (fmul nan_sign v t)).
Proof.
  intros V T. split.
  - intros (z & P & S). apply fmul_product in P; [|exact V|exact T]. apply fadd_sum in S. now rewrite P, S.
  - intros ->. exists (fmul nan_sign v t). split; [now apply fmul_product|now apply fadd_sum].
Qed.
Lemma moves_is t b b' : fine b -> value_in binary32 t -> (moves nan_sign t b b' <-> particle_of b' = step nan_sign t (particle_of b)).
Proof.
  intros [_ [V W]] T. unfold moves, step, point_plus, point_times. cbn [pt_id pt_position pt_velocity particle_of].
  rewrite (moved_is _ _ _ _ V T), (moved_is _ _ _ _ W T). destruct b' as [n [x y] v]. cbn [called at_ speed fst snd]. split.
  - intros (-> & -> & -> & ->). reflexivity.
  - intros [= -> -> -> ->]. auto.
Qed.
Lemma moves_fine t b b' : fine b -> value_in binary32 t -> moves nan_sign t b b' -> fine b'.
Proof.
  intros F T M. apply moves_is in M; [|exact F|exact T]. destruct F as [_ F]. destruct b' as [n [x y] v]. unfold step, point_plus in M.
  cbn in M. injection M as -> -> -> ->. split; [split; apply fadd_in|exact F].
Qed.
Lemma all_move t l : Forall fine l -> value_in binary32 t -> forall l',
  Forall2 (moves nan_sign t) l l' <-> map particle_of l' = map (step nan_sign t) (map particle_of l).
Proof.
  intros F T. induction F as [|b l Fb F IH]; intros l'; cbn [map].
  - split; [now inversion 1|]. destruct l'; [constructor|discriminate].
  - split.
    + inversion 1 as [|? b' ? l0 M Ms]; subst. cbn [map]. apply moves_is in M; [|exact Fb|exact T]. apply IH in Ms. now rewrite M, Ms.
    + destruct l' as [|b' l0]; [discriminate|]. cbn [map]. intros E.
      assert (Eh := f_equal (hd (particle_of b)) E). assert (Et := f_equal (@tl _) E). cbn [hd tl] in Eh, Et.
      constructor; [now apply moves_is|now apply IH].
Qed.
Lemma all_fine t l l' : Forall fine l -> value_in binary32 t -> Forall2 (moves nan_sign t) l l' -> Forall fine l'.
Proof. intros F T M. induction M as [|b b' l l' M Ms IH]; inversion F; subst; constructor; [eapply moves_fine; eassumption|now apply IH]. Qed.

Lemma adds_is l : forall a r, adds nan_sign a l r <-> fold_left (fadd nan_sign) l a = r.
Proof.
  induction l as [|x l IH]; intros a r; cbn [fold_left].
  - split; [now inversion 1|intros <-; constructor].
  - split.
    + inversion 1 as [|? ? b ? ? S A]; subst. apply fadd_sum in S. subst b. now apply IH.
    + intros H. econstructor; [now apply fadd_sum|]. now apply IH.
Qed.
Lemma adds_in l : forall a r, value_in binary32 a -> adds nan_sign a l r -> value_in binary32 r.
Proof.
  induction l as [|x l IH]; intros a r V A; inversion A; subst; [exact V|]. eapply IH; [|eassumption].
  match goal with S : float_sum _ _ _ _ |- _ => apply fadd_sum in S; rewrite <- S end. apply fadd_in.
Qed.
Lemma plus_zero_in : value_in binary32 plus_zero.
Proof. cbn. repeat split; cbn; lia. Qed.
Lemma float_text x t : value_in binary32 x -> shows millionth x t -> rtext (RValue (float_ser uf)) x = Done (Some t).
Proof. intros V S. apply C87_float_iff in S; [|exact V]. rewrite <- S. reflexivity. Qed.
Lemma shown x : value_in binary32 x -> shows millionth x (toStringF x).
Proof. intros V. now apply C87_float_iff. Qed.

(** ** The commands *)

Local Notation taken := (taken code).
Lemma only_one (f : fn) : taken [f] f.
Proof. exists [], []. split; [reflexivity|intros ? []]. Qed.
Lemma the_first (f g : fn) : taken [f; g] f.
Proof. exists [], [g]. split; [reflexivity|intros ? []]. Qed.
Lemma the_second (f g : fn) : length (f_params (code f)) <> length (f_params (code g)) -> taken [f; g] g.
Proof. intros H. exists [f], []. split; [reflexivity|]. now intros ? [<-|[]]. Qed.

Lemma lines_run sid s inp l : forall es out,
  run sid s (ctx inp es out) (list_lines l) = Done (s, ctx inp es (out ++ List.concat (map (fun q => particle_line q ++ [nl]) l)), inl tt).
Proof.
  induction l as [|q l IH]; intros es out; cbn [list_lines run_prog map List.concat]; [now rewrite app_nil_r|].
  rewrite ctx_line, IH. now rewrite <- !app_assoc.
Qed.

Ltac acting fs f vs scn out r txt :=
  match goal with R : serves ?sc0 ?s, nd : list (bytes * list bytes) |- exists inp s', exec_input _ _ _ _ _ (Input ?n ?pos _) = _ /\ _ =>
    apply (run_acts code sg catching d commands good world_of sc0 s n fs f pos nd vs scn [] out r txt R);
      try discriminate; [cbn; tauto|first [apply only_one|apply the_first|apply the_second; discriminate]|..]
  end.
Ltac steps := intros sid _; cbn [CompoundExample.code variable_get variable_set f_body fst snd run_prog s_world set_world
  set_particles set_pivot w_particles w_pivot bodies pivot with_bodies with_pivot].

Lemma exec_acts sc s name pos nd sc' es ret out : serves sc s -> acts sc name pos nd sc' es ret out ->
  exists inp s', exec s (Input name pos nd) = Done (s', inl (Result inp es ret out)) /\ serves sc' s'.
Proof.
  intros R A. assert (Hw := proj1 (proj2 (proj2 R))). assert (G := proj2 (proj2 (proj2 R))). cbn beta in Hw, G.
  assert (Kp : set_world s (world_of sc) = s) by (rewrite <- Hw; now destruct s).
  assert (Gb := proj1 G). assert (Gp := proj2 G).
  destruct A as [nd n v w x y V W|nd n b t Fb Tb|nd n N|nd v t l V M|nd h r H Rw|nd t T|nd v x t V T|nd v xs x t V A Sh|nd v x t M Sh|nd v x t M Px Sh].
  - acting [FAdd] FAdd (n, (x, (y, tt))) (with_bodies (bodies sc ++ [Body n x y]) sc) (@nil byte) tt (@None bytes); [exact (three n v w x y V W)| | |reflexivity].
    + split; [|exact Gp]. apply Forall_app. split; [exact Gb|]. constructor; [|constructor]. split; [exact (pair_in v x V)|exact (pair_in w y W)].
    + steps. unfold add. cbn [run_prog]. rewrite Hw. rewrite map_app. reflexivity.
  - assert (Fn : fine b) by (apply (proj1 (Forall_forall _ _) Gb), (first_in _ _ _ Fb)). apply body_is in Tb; [|exact Fn].
    acting [FGet] FGet (n, tt) sc (@nil byte) (Some (particle_of b)) (Some t); [exact (text_one n)|exact G| |].
    + steps. unfold get. cbn [run_prog]. rewrite Hw. cbn [w_particles]. rewrite (found _ _ _ Fb). now rewrite Kp.
    + rewrite Tb. reflexivity.
  - acting [FGet] FGet (n, tt) sc (@nil byte) (@None particle) (Some (lit "null")); [exact (text_one n)|exact G| |reflexivity].
    steps. unfold get. cbn [run_prog]. rewrite Hw. cbn [w_particles]. rewrite (not_found _ _ N). now rewrite Kp.
  - assert (T := float_in v t V). acting [FUpdate] FUpdate (t, tt) (with_bodies l sc) (@nil byte) tt (@None bytes); [exact (float_one v t V)| | |reflexivity].
    + split; [|exact Gp]. exact (all_fine t _ _ Gb T M).
    + steps. unfold update. cbn [run_prog]. rewrite Hw. cbn [w_particles]. apply all_move in M; [|exact Gb|exact T]. rewrite <- M. reflexivity.
  - apply head_is in H. apply rows_is in Rw; [|exact Gb].
    acting [FList] FList tt sc (h ++ r) tt (@None bytes); [constructor|exact G| |reflexivity].
    steps. unfold list_. cbn [run_prog]. rewrite !ctx_line, Hw. cbn [w_particles]. rewrite lines_run, Kp, H, Rw, map_map, <- !app_assoc. reflexivity.
  - apply point_is in T; [|exact Gp]. acting [FPivotGet; FPivotSet] FPivotGet tt sc (@nil byte) (pivot sc) (Some t); [constructor|exact G| |rewrite T; reflexivity].
    steps. now rewrite Hw, Kp.
  - assert (X := pair_in v x V). apply point_is in T; [|exact X].
    acting [FPivotGet; FPivotSet] FPivotSet (x, tt) (with_pivot x sc) (@nil byte) x (Some t); [exact (point_one v x V)|split; assumption| |rewrite T; reflexivity].
    steps. now rewrite Hw.
  - assert (X := adds_in _ _ _ plus_zero_in A). apply adds_is in A.
    acting [FSumAll] FSumAll (xs, tt) sc (@nil byte) x (Some t); [exact (numbers_one v xs V)|exact G| |now apply float_text].
    steps. unfold sum_all. change (Fin false 0 (emin binary32)) with plus_zero. rewrite A. cbn [run_prog]. now rewrite Kp.
  - acting [FArgOrPi] FArgOrPi (Some x, tt) sc (@nil byte) x (Some t); [exact (maybe_one v _ M)|exact G| |apply float_text; [exact (maybe_in v x M)|exact Sh]].
    steps. unfold get_arg_or_pi. cbn [run_prog]. now rewrite Kp.
  - apply pi_is in Px. subst x. acting [FArgOrPi] FArgOrPi (@None fval, tt) sc (@nil byte) nearly_pi (Some t);
      [exact (maybe_one v _ M)|exact G| |apply float_text; [repeat split; cbn; lia|exact Sh]].
    steps. unfold get_arg_or_pi. cbn [run_prog]. now rewrite Kp.
Qed.

Lemma accepted_nil pos : accepted [] pos -> pos = [].
Proof. intros H. now inversion H. Qed.
Lemma accepted_cons P Ps pos : accepted (P :: Ps) pos -> exists v x vs, pos = v :: vs /\ p_ok P v x /\ accepted Ps vs.
Proof. intros H. inversion H as [|? v ? vs (x & O) H']; subst. now exists v, x, vs. Qed.

Lemma acts_total sc name pos nd overloads Ps : good sc -> In (name, overloads) table -> In Ps overloads -> accepted Ps pos ->
  exists sc' es ret out, acts sc name pos nd sc' es ret out.
Proof.
  intros [Gb Gp] J K A. cbn in J. repeat (destruct J as [J|J]; [injection J as <- <-|]); [..|destruct J];
    cbn in K; repeat (destruct K as [<-|K]); try destruct K;
    repeat (let v := fresh "v" in let x := fresh "x" in let V := fresh "V" in
            apply accepted_cons in A; destruct A as (v & x & ? & -> & V & A); cbn in x, V); apply accepted_nil in A; subst;
    repeat match goal with V : denotes_value text_kind _ _ |- _ => destruct V as (? & -> & <-) end.
  - eexists _, _, _, _. eapply acts_add; eassumption.
  - match goal with |- exists _ _ _ _, CompoundExampleSpec.acts _ _ _ _ [[?n]] _ _ _ _ _ => destruct (known n (bodies sc)) as [(b & Fb)|N] end.
    + eexists _, _, _, _. eapply acts_get; [exact Fb|]. apply body_is; [|reflexivity].
      apply (proj1 (Forall_forall _ _) Gb), (first_in _ _ _ Fb).
    + eexists _, _, _, _. now apply acts_get_none.
  - eexists _, _, _, _. eapply acts_update; [exact V|]. apply all_move; [exact Gb|exact (float_in _ _ V)|]. apply of_of.
  - eexists _, _, _, _. apply acts_list; [now apply head_is|now apply rows_is].
  - eexists _, _, _, _. apply acts_pivot. now apply point_is.
  - eexists _, _, _, _. eapply acts_set_pivot; [exact V|]. apply point_is; [exact (pair_in _ _ V)|reflexivity].
  - eexists _, _, _, _. eapply acts_sum; [exact V|now apply adds_is|]. apply shown. eapply adds_in; [exact plus_zero_in|now apply adds_is].
  - match goal with V : maybe _ ?o |- _ => destruct o as [y|] end.
    + eexists _, _, _, _. eapply acts_argument; [exact V|]. apply shown. exact (maybe_in _ _ V).
    + eexists _, _, _, _. eapply acts_pi; [exact V|now apply pi_is|]. apply shown. repeat split; cbn; lia.
Qed.

Lemma is_implemented : implemented code (fun _ => None) sg catching d commands table acts goes_wrong good world_of.
Proof.
  split.
  - reflexivity.
  - exact agreed.
  - cbn. repeat constructor; cbn; intuition discriminate.
  - intros. now apply exec_acts with (sc := sc).
  - intros. contradiction.
  - intros. left. now apply acts_total with (overloads := overloads) (Ps := Ps).
Qed.

Lemma first_good : good first_scene.
Proof. split; [constructor|]. split; exact plus_zero_in. Qed.
End Compound.

(** * C91 *)
Section Theorems.
(** What strtof makes of tiny values, the names that typeid gives Point and Particle, the sign of NaN
    after an invalid operation, whether char is signed, whether exceptions are caught, and how deep
    commands may nest. *)
Variables (uf : bool) (point_name particle_name : bytes) (nan_sign : bool).
Variables sg catching : bool.
Variable d : nat.
Hypothesis Np : no_nul point_name.

Local Notation table := (table uf point_name).
Local Notation acts := (acts uf nan_sign).
Local Notation C := (cfg_classes sg default_cfg).
Local Notation dialogue := (dialogue table acts C).
Local Notation stuck := (stuck table acts C).
Local Notation session := (CompoundExample.run uf point_name particle_name nan_sign sg catching d).
Local Notation I := (is_implemented uf point_name particle_name nan_sign sg catching d Np).
Local Notation world_of := (fun z : scene => World (map particle_of (bodies z)) (pivot z)).
Local Notation floats := (denotes_value (float_kind uf)).

Lemma begun : exists s, start sg = Done s /\ serves sg commands proper world_of first_scene s.
Proof. exact (started _ _ sg catching d _ _ _ _ _ _ I first_scene first_good). Qed.

Lemma no_disaster sc lines f : ~ disaster table acts goes_wrong C sc lines f.
Proof. intros D. induction D as [? ? ? ? (n & pos & nd & _ & [])|]; assumption. Qed.

Lemma same_world sc sc' : world_of sc = world_of sc' -> sc = sc'.
Proof.
  destruct sc as [l x], sc' as [l' x']. cbn [bodies pivot]. intros E. injection E as El ->. f_equal.
  apply (f_equal (map body_of)) in El. now rewrite !of_of' in El.
Qed.

Theorem C91_session_iff : forall lines sc rs, Forall no_nul lines ->
  (dialogue first_scene lines sc rs <->
   exists s s' xs, start sg = Done s /\ session s lines = Done (s', xs) /\ map reply xs = rs /\
     s_world s' = World (map particle_of (bodies sc)) (pivot sc)).
Proof.
  intros lines sc rs N. destruct begun as (s & E & R).
  destruct (session_iff _ _ sg catching d _ _ _ _ _ _ I first_scene s lines (world_of sc) rs R N) as [A B]. split.
  - intros D. destruct A as (s' & xs & H); [now exists sc|]. now exists s, s', xs.
  - intros (s0 & s' & xs & E0 & H). rewrite E in E0. injection E0 as <-. destruct B as (sc' & D & X); [now exists s', xs|].
    apply same_world in X. now subst sc'.
Qed.

(** No undefined behaviour but that of C01, and no exceptions. *)
Theorem C91_no_fault : forall lines s, Forall no_nul lines -> start sg = Done s ->
  ((exists f, session s lines = Fault f) <-> stuck first_scene lines).
Proof.
  intros lines s N E. destruct begun as (s0 & E0 & R). rewrite E in E0. injection E0 as <-. split.
  - intros (f & F). destruct (fault_iff _ _ sg catching d _ _ _ _ _ _ I first_scene s lines f R N) as [_ B].
    destruct (B F) as [D|D]; [elim (no_disaster _ _ _ D)|exact D].
  - intros D. exact (session_stuck _ _ sg catching d _ _ _ _ _ _ I first_scene lines s D N R).
Qed.

Theorem C91_described : forall lines, Forall no_nul lines ->
  ((exists sc rs, dialogue first_scene lines sc rs) \/ stuck first_scene lines) /\
  (forall sc rs sc' rs', dialogue first_scene lines sc rs -> dialogue first_scene lines sc' rs' -> rs = rs' /\ sc = sc').
Proof.
  intros lines N. destruct begun as (s & E & R). split.
  - destruct (ExampleProofs.total _ _ sg catching d _ _ _ _ _ _ I lines first_scene s R N) as [H|[(f & H)|H]];
      [now left|elim (no_disaster _ _ _ H)|now right].
  - intros sc rs sc' rs' H H'. destruct (proj1 (not_both _ _ sg catching d _ _ _ _ _ _ I first_scene s lines R N) _ _ _ _ H H') as [X Y].
    split; [exact X|]. now apply same_world.
Qed.

(** ** Adding and getting *)

Lemma get_text sc n nd sc' es ret out : acts sc (lit "particles.get") [[n]] nd sc' es ret out ->
  sc' = sc /\ es = [] /\ out = [] /\
  ((exists b t, first_called n (bodies sc) b /\ body_text b t /\ ret = Some t) \/
   (~ In n (map called (bodies sc)) /\ ret = Some (lit "null"))).
Proof. intros A. inversion A; subst; repeat (split; [reflexivity|]); [left; eauto|right; auto]. Qed.

Lemma first_app n l b b' : first_called n (l ++ [b']) b <->
  first_called n l b \/ (~ In n (map called l) /\ called b' = n /\ b = b').
Proof.
  split.
  - intros F. destruct (known n l) as [(a & Fa)|N].
    + left. replace b with a; [exact Fa|]. apply (first_unique n (l ++ [b'])); [|exact F].
      destruct Fa as (x & y & -> & Ca & N). exists x, (y ++ [b']). split; [now rewrite <- app_assoc|now split].
    + right. split; [exact N|]. destruct F as (x & y & E & Cb & Nx). destruct (exists_last (l := b :: y)) as (y' & z & E'); [discriminate|].
      rewrite E', app_assoc in E. apply app_inj_tail in E. destruct E as [-> <-]. destruct y' as [|c y'].
      * injection E' as -> ->. now split.
      * injection E' as <- _. elim N. rewrite map_app. apply in_or_app. right. now left.
  - intros [(x & y & -> & Cb & N)|(N & Cb & ->)].
    + exists x, (y ++ [b']). split; [now rewrite <- app_assoc|now split].
    + exists l, []. now split.
Qed.

(** A particle with a new name is found; with a name that is taken the older one is.  Other names are
    not concerned. *)
Theorem C91_add_get : forall sc nd n v w x y, denotes_pair uf v x -> denotes_pair uf w y -> exists sc',
  acts sc (lit "particles.add") [[n]; v; w] nd sc' [] None [] /\
  (~ In n (map called (bodies sc)) -> forall r,
     acts sc' (lit "particles.get") [[n]] nd sc' [] (Some r) [] <-> body_text (Body n x y) r) /\
  (forall m r, m <> n \/ In n (map called (bodies sc)) ->
     (acts sc' (lit "particles.get") [[m]] nd sc' [] r [] <-> acts sc (lit "particles.get") [[m]] nd sc [] r [])).
Proof.
  intros sc nd n v w x y V W. exists (with_bodies (bodies sc ++ [Body n x y]) sc). split; [now apply acts_add|]. split.
  - intros N r. split.
    + intros A. apply get_text in A. cbn [bodies with_bodies] in A. destruct A as (_ & _ & _ & [(b & t & F & T & E)|[M _]]).
      * injection E as ->. apply first_app in F. destruct F as [F|(_ & _ & ->)]; [elim N; exact (first_name _ _ _ F)|exact T].
      * elim M. rewrite map_app. apply in_or_app. right. now left.
    + intros T. eapply acts_get; [|exact T]. apply first_app. now right.
  - intros m r H.
    assert (K : forall b, first_called m (bodies sc ++ [Body n x y]) b <-> first_called m (bodies sc) b).
    { intros b. rewrite first_app. split; [|now left]. intros [F|(N & E & ->)]; [exact F|]. cbn in E. subst m. destruct H as [H|H]; [now elim H|contradiction]. }
    assert (L : In m (map called (bodies sc ++ [Body n x y])) <-> In m (map called (bodies sc))).
    { rewrite map_app, in_app_iff. cbn. split; [|now left]. intros [J|[E|[]]]; [exact J|]. subst m. destruct H as [H|H]; [now elim H|exact H]. }
    split; intros A; apply get_text in A; destruct A as (_ & _ & _ & [(b & t & F & T & ->)|[M ->]]); cbn [bodies with_bodies] in *.
    + eapply acts_get; [apply K; exact F|exact T].
    + apply acts_get_none. now rewrite <- L.
    + eapply acts_get; [apply K; exact F|exact T].
    + apply acts_get_none. cbn [bodies with_bodies]. now rewrite L.
Qed.

(** ** Moving *)

(** Time neither makes nor removes particles, and does not change their order, names and velocities. *)
Theorem C91_update_keeps : forall sc nd v sc' es ret out, acts sc (lit "particles.update") [v] nd sc' es ret out ->
  map called (bodies sc') = map called (bodies sc) /\ map speed (bodies sc') = map speed (bodies sc) /\
  pivot sc' = pivot sc /\ es = [] /\ ret = None /\ out = [] /\
  forall n, acts sc' (lit "particles.get") [[n]] nd sc' [] (Some (lit "null")) [] <->
            acts sc (lit "particles.get") [[n]] nd sc [] (Some (lit "null")) [].
Proof.
  intros sc nd v sc' es ret out A. inversion A; subst. cbn [bodies pivot with_bodies].
  match goal with M : Forall2 _ (bodies sc) ?l' |- _ => assert (E : map called l' = map called (bodies sc) /\ map speed l' = map speed (bodies sc));
    [clear - M; induction M as [|a b x y (P & Q & _) M [IH IH']]; [now split|]; cbn [map]; now rewrite P, Q, IH, IH'|] end.
  destruct E as [Ec Es]. split; [exact Ec|]. split; [exact Es|]. repeat (split; [reflexivity|]).
  assert (Z : forall b, ~ body_text b (lit "null")) by (intros b (x & y & _ & _ & E); discriminate E).
  intros n. split; intros G; apply get_text in G; destruct G as (_ & _ & _ & [(b & ? & _ & T & [= <-])|[M _]]); try (now elim (Z b));
    apply acts_get_none; cbn [bodies with_bodies] in *; now rewrite Ec in * || rewrite <- Ec in *.
Qed.

Lemma still_coordinate x v t : value_in binary32 x -> value_in binary32 v -> value_in binary32 t ->
  ~ zero x -> zero v -> (exists q, stands_for t q) -> forall y, moved nan_sign x v t y -> y = x.
Proof.
  intros X V T Nx (sv & ev & ->) (q & St) y M. apply moved_is in M; [|exact V|exact T]. subst y.
  destruct t as [st mt et|st|st]; [|inversion St..]. cbn [fmul].
  replace (rounded (xorb sv st) _) with (Fin (xorb sv st) 0 (-149)); [now apply fadd_zero|]. symmetry. apply rounded_nearest.
  - apply Qmult_le_0_compat; apply dyadic_nonneg; eapply FloatOpsProofs.value_nonneg; eassumption.
  - assert (Z : (dyadic 0 ev * dyadic mt et == 0)%Q) by (unfold dyadic; ring). constructor.
    + intros L. apply too_large_pos in L. rewrite Z in L. discriminate L.
    + now apply (nearest_zero binary32 _ binary32_sane).
Qed.

(** Particles without velocity stay where they are, unless a coordinate is zero, whose sign can change. *)
Theorem C91_still : forall sc nd v t sc' es ret out, proper sc -> floats v t -> (exists q, stands_for t q) ->
  Forall (fun b => zero (fst (speed b)) /\ zero (snd (speed b)) /\ ~ zero (fst (at_ b)) /\ ~ zero (snd (at_ b))) (bodies sc) ->
  acts sc (lit "particles.update") [v] nd sc' es ret out -> sc' = sc.
Proof.
  intros sc nd v t sc' es ret out [Gb _] V St F A. inversion A; subst.
  match goal with V' : floats v ?t' |- _ => assert (t' = t) by (apply (proj1 (float_implements uf)) in V, V'; congruence); subst end.
  destruct sc as [bs x]. unfold with_bodies. cbn [bodies pivot] in *. f_equal. assert (T := float_in uf v t V).
  match goal with M : Forall2 _ bs ?l' |- _ => clear A; revert l' M end.
  induction bs as [|b bs IH]; intros l' M; inversion M; subst; [reflexivity|].
  inversion Gb as [|? ? [[Ga Gb'] [Gc Gd]] Gl]; subst. inversion F as [|? ? (Za & Zb & Na & Nb) Fl]; subst. f_equal; [|now apply IH].
  match goal with H : moves _ _ b ?b' |- _ => destruct H as (Hc & Hs & Hx & Hy); destruct b as [n [bx by_] s], b' as [n' [bx' by'] s'] end. cbn in *. subst.
  apply still_coordinate in Hx, Hy; auto. now subst.
Qed.

(** ** Sums *)

Lemma whole_magnitude z : (0 <= z < 2 ^ 24)%Z -> exists m e, magnitude_in binary32 m e /\ (inject_Z z == inject_Z m * 2 ^ e)%Q.
Proof.
  intros H. destruct (Z.eq_dec z 0) as [->|N]; [exists 0%Z, (-149)%Z; split; [repeat split; cbn; lia|reflexivity]|].
  set (k := Z.log2 z). assert (Hk : (0 <= k < 24)%Z) by (split; [apply Z.log2_nonneg|apply Z.log2_lt_pow2; lia]).
  destruct (Z.log2_spec z) as [L U]; [lia|]. fold k in L, U. rewrite Z.pow_succ_r in U by lia.
  assert (E : (2 ^ k * 2 ^ (23 - k) = 2 ^ 23)%Z) by (rewrite <- Z.pow_add_r by lia; f_equal; lia).
  assert (P : (0 < 2 ^ (23 - k))%Z) by (apply Z.pow_pos_nonneg; lia).
  exists (z * 2 ^ (23 - k))%Z, (k - 23)%Z. split.
  - change (prec binary32) with 24%Z. unfold magnitude_in. change (prec binary32) with 24%Z. change (2 ^ (24 - 1))%Z with (2 ^ 23)%Z.
    change (emin binary32) with (-149)%Z. change (emax binary32) with 104%Z.
    assert (2 ^ 23 <= z * 2 ^ (23 - k) < 2 ^ 24)%Z by (change (2 ^ 24)%Z with (2 * 2 ^ 23)%Z; rewrite <- E; nia).
    split; [lia|]. split; [lia|]. lia.
  - rewrite inject_Z_mult. rewrite pow2_Z by lia. rewrite <- Qmult_assoc, <- Qpower_plus by discriminate.
    replace (23 - k + (k - 23))%Z with 0%Z by lia. change (2 ^ 0)%Q with 1%Q. ring.
Qed.

Lemma whole_sum a x b z z' : stands_for a (inject_Z z) -> stands_for x (inject_Z z') -> (Z.abs (z + z') < 2 ^ 24)%Z ->
  float_sum nan_sign a x b -> stands_for b (inject_Z (z + z')).
Proof.
  intros A X B S. destruct S as [q r neg y Sa Sx Sg Nr|s [[-> _]|[_ ->]]|s -> _|s [-> |[_ ->]]]; try (now inversion A); try (now inversion X).
  assert (Q1 : (q == inject_Z z)%Q) by (inversion Sa; subst; inversion A; subst; lra).
  assert (Q2 : (r == inject_Z z')%Q) by (inversion Sx; subst; inversion X; subst; lra).
  assert (Qs : (q + r == inject_Z (z + z'))%Q) by (rewrite Q1, Q2, inject_Z_plus; reflexivity).
  destruct (whole_magnitude (Z.abs (z + z'))) as (m & e & M & E); [lia|].
  assert (Qa : (Qabs (q + r) == inject_Z m * 2 ^ e)%Q) by (rewrite Qs, <- E; unfold Qabs, inject_Z; reflexivity).
  destruct Nr as [m' e' T Nm|T]; [|elim (not_too_large binary32 m e _ binary32_sane M Qa T)].
  destruct (nearest_unique _ _ _ _ _ _ binary32_sane Nm (nearest_exact _ _ _ _ binary32_sane M Qa)) as [-> ->].
  assert (P : (0 <= Qabs (q + r))%Q) by apply Qabs_nonneg.
  destruct Sg as [L|L|L].
  - constructor. rewrite <- Qa, <- Qs. rewrite (Qabs_neg (q + r)) by (now apply Qlt_le_weak). ring.
  - constructor. rewrite <- Qa, <- Qs. rewrite (Qabs_pos (q + r)) by (now apply Qlt_le_weak). reflexivity.
  - assert (Z0 : (inject_Z m * 2 ^ e == 0)%Q) by (rewrite <- Qa, L; reflexivity).
    destruct (negative a && negative x); constructor; rewrite <- Qs, L, Z0; reflexivity.
Qed.

Lemma size_nonneg zs : (0 <= total_size zs)%Z.
Proof. induction zs as [|z zs IH]; [easy|]. unfold total_size in *. cbn [fold_right]. lia. Qed.

Lemma whole_adds zs : forall a xs b z, stands_for a (inject_Z z) -> Forall2 (fun x z => stands_for x (inject_Z z)) xs zs ->
  (Z.abs z + total_size zs < 2 ^ 24)%Z -> adds nan_sign a xs b -> stands_for b (inject_Z (z + fold_right Z.add 0%Z zs)).
Proof.
  induction zs as [|y zs IH]; intros a xs b z A F B H; inversion F; subst; inversion H; subst; unfold total_size in *; cbn [fold_right] in *.
  - now rewrite Z.add_0_r.
  - fold (total_size zs) in *. assert (P := size_nonneg zs). rewrite Z.add_assoc. eapply IH; [eapply whole_sum; [exact A|eassumption|lia|eassumption]|eassumption|lia|eassumption].
Qed.

(** Sums of whole numbers whose magnitudes stay below a million are exact, in any order. *)
Theorem C91_sum_whole : forall sc nd v xs zs a, numbers uf v xs -> Forall2 (fun x z => stands_for x (inject_Z z)) xs zs ->
  (total_size zs < 1000000)%Z ->
  (acts sc (lit "sum_all") [v] nd sc [] (Some a) [] <-> canonical (fold_right Z.add 0%Z zs) a).
Proof.
  intros sc nd v xs zs a V F B. set (x := fold_left (fadd nan_sign) xs plus_zero).
  assert (A : adds nan_sign plus_zero xs x) by now apply adds_is.
  assert (Vx := adds_in nan_sign _ _ _ plus_zero_in A).
  assert (S : stands_for x (inject_Z (fold_right Z.add 0%Z zs))).
  { change (fold_right Z.add 0%Z zs) with (0 + fold_right Z.add 0%Z zs)%Z. eapply whole_adds; [|exact F| |exact A]; [constructor; reflexivity|cbn; lia]. }
  assert (L : (Z.abs (fold_right Z.add 0%Z zs) <= total_size zs)%Z) by (clear; induction zs as [|z zs IH]; [easy|]; unfold total_size in *; cbn [fold_right]; lia).
  rewrite <- (C87_whole binary32 x _ a Vx S) by lia. rewrite (C87_float_iff x a Vx). split.
  - intros H. inversion H; subst. match goal with V' : numbers uf v ?ys |- _ => assert (ys = xs) by (apply numbers_value in V, V'; congruence); subst end.
    match goal with A' : adds _ _ xs ?y |- _ => assert (y = x) by (apply adds_is in A, A'; congruence); now subst end.
  - intros H. eapply acts_sum; eassumption.
Qed.

(** One number that is not zero is its own sum. *)
Theorem C91_sum_one : forall sc nd s x a, k_word (float_kind uf) s x -> ~ zero x ->
  (acts sc (lit "sum_all") [[s]] nd sc [] (Some a) [] <-> shows millionth x a).
Proof.
  intros sc nd s x a W Nz. assert (Vx := word_in uf s x W).
  assert (V : numbers uf [s] [x]) by (constructor; [exact W|constructor]).
  assert (A : adds nan_sign plus_zero [x] x).
  { apply adds_is. cbn [fold_left]. rewrite fadd_comm; [now apply fadd_zero|]. intros (? & E). discriminate E. }
  split.
  - intros H. inversion H; subst. match goal with V' : numbers uf [s] ?ys |- _ => assert (ys = [x]) by (apply numbers_value in V, V'; congruence); subst end.
    match goal with A' : adds _ _ [x] ?y |- _ => assert (y = x) by (apply adds_is in A, A'; congruence); now subst end.
  - intros H. eapply acts_sum; eassumption.
Qed.

(** In general the order matters. *)
Theorem C91_sum_order_refuted : exists v v', Permutation v v' /\ forall sc nd,
  acts sc (lit "sum_all") [v] nd sc [] (Some (lit "1")) [] /\ acts sc (lit "sum_all") [v'] nd sc [] (Some (lit "0")) [].
Proof.
  exists [lit "16777216"; lit "-16777216"; lit "1"], [lit "16777216"; lit "1"; lit "-16777216"].
  split; [apply perm_skip, perm_swap|]. intros sc nd.
  assert (W : numbers uf [lit "16777216"; lit "-16777216"; lit "1"] [Fin false 8388608 1; Fin true 8388608 1; Fin false 8388608 (-23)]).
  { apply numbers_value. destruct uf; vm_compute; reflexivity. }
  inversion W as [|? ? ? ? W1 W']; subst. inversion W' as [|? ? ? ? W2 W'']; subst. inversion W'' as [|? ? ? ? W3 _]; subst. split.
  - eapply acts_sum; [exact W|now apply adds_is|]. apply C87_float_iff; [|vm_compute; reflexivity]. apply fadd_in.
  - eapply (acts_sum _ _ _ _ _ [Fin false 8388608 1; Fin false 8388608 (-23); Fin true 8388608 1]); [repeat constructor; assumption|now apply adds_is|].
    apply C87_float_iff; [|vm_compute; reflexivity]. apply fadd_in.
Qed.

(** ** The optional argument *)

(** Only the first item counts. *)
Theorem C91_first_counts : forall sc nd s r a,
  acts sc (lit "get_arg_or_pi") [s :: r] nd sc [] (Some a) [] <-> acts sc (lit "get_arg_or_pi") [[s]] nd sc [] (Some a) [].
Proof.
  intros sc nd s r a. assert (K : forall o, maybe uf (s :: r) o <-> maybe uf [s] o).
  { intros o. split; intros M; inversion M; subst; constructor; assumption. }
  split; intros A; inversion A; subst; (eapply acts_argument; [apply K; eassumption|eassumption]) || (eapply acts_pi; [apply K; eassumption|eassumption|eassumption]).
Qed.

(** Without a number the answer is 3.14. *)
Theorem C91_no_number : forall sc nd v a, v = [] \/ (exists r, v = [] :: r) ->
  (acts sc (lit "get_arg_or_pi") [v] nd sc [] (Some a) [] <-> a = lit "3.14").
Proof.
  intros sc nd v a H. assert (M : maybe uf v None) by (destruct H as [-> |(r & ->)]; constructor).
  assert (Vp : value_in binary32 nearly_pi) by (repeat split; cbn; lia).
  split.
  - intros A. inversion A; subst.
    + match goal with M' : maybe uf v (Some _) |- _ => apply maybe_value in M, M'; congruence end.
    + match goal with P : nearest_float _ _ _ |- _ => apply pi_is in P; subst end.
      match goal with Sh : shows _ _ _ |- _ => apply C87_float_iff in Sh; [|exact Vp]; rewrite <- Sh end. vm_compute. reflexivity.
  - intros ->. eapply acts_pi; [exact M|now apply pi_is|]. apply C87_float_iff; [exact Vp|]. vm_compute. reflexivity.
Qed.
End Theorems.

(** ** Examples *)

Definition ex_point : bytes := lit "N12_GLOBAL__N_15PointE".
Definition ex_particle : bytes := lit "N12_GLOBAL__N_114ParticleSystem8ParticleE".
Definition ex_session (l : list string) : outcome (list (list bytes * option bytes * bytes) * world) :=
  s <- start true ;;
  r <- CompoundExample.run true ex_point ex_particle true true true 3 s (map lit l) ;;
  Done (map reply (snd r), s_world (fst r)).
Definition ex_world (sc : scene) : world := World (map particle_of (bodies sc)) (pivot sc).
Definition ex_one : fval := Fin false 8388608 (-23).
Definition ex_two : fval := Fin false 8388608 (-22).
Definition ex_three : fval := Fin false 12582912 (-22).
Definition ex_half : fval := Fin false 12582912 (-23).

(** The commands of CompoundExample.cpp:151-165. *)
Definition ex_commands : list string :=
  ["particles.add p1 1,1 1,1"; "particles.add p2 0,1 1,0"; "particles.add p3 1,0 0,1"; "particles.list"; "particles.update 2.0";
   "particles.list"; "particles.get p2"; "particles.get unknown_particle"; "pivot"; "pivot (1 1)"]%string.
Definition ex_row (a b c : string) : bytes := lit a ++ tab :: lit b ++ tab :: lit c ++ [nl].
Definition ex_head : bytes := ex_row "ID" "Pos" "Vel" ++ ex_row "--" "---" "---".
Definition ex_replies : list (list bytes * option bytes * bytes) :=
  [([], None, []); ([], None, []); ([], None, []);
   ([], None, ex_head ++ ex_row "p1" "(1,1)" "(1,1)" ++ ex_row "p2" "(0,1)" "(1,0)" ++ ex_row "p3" "(1,0)" "(0,1)");
   ([], None, []);
   ([], None, ex_head ++ ex_row "p1" "(3,3)" "(1,1)" ++ ex_row "p2" "(2,1)" "(1,0)" ++ ex_row "p3" "(1,2)" "(0,1)");
   ([], Some (lit "{'p2': p (2,1), v (1,0)}"), []); ([], Some (lit "null"), []);
   ([], Some (lit "(0,0)"), []); ([], Some (lit "(1,1)"), [])].
Definition ex_scene : scene :=
  Scene [Body (lit "p1") (ex_three, ex_three) (ex_one, ex_one); Body (lit "p2") (ex_two, ex_one) (ex_one, plus_zero);
         Body (lit "p3") (ex_one, ex_two) (plus_zero, ex_one)] (ex_one, ex_one).
Example C91_ex_run : ex_session ex_commands = Done (ex_replies, ex_world ex_scene).
Proof. vm_compute. reflexivity. Qed.

(** The commands of CompoundExample.cpp:168-181: the ways to write a point, and the wrong number of
    items. *)
Example C91_ex_points : ex_session ["pivot (1.5, 1.5)"; "pivot (1.5 , 1.5)"; "pivot (1.5 ; 1.5)"; "pivot (1.5 1.5)"; "pivot (1.5,1.5)";
    "pivot (1.5;1.5)"; "pivot (1.5 | 1.5)"; "pivot 1.5,1.5"; "pivot 1.5;1.5"; "pivot 1.5|1.5"; "pivot 1 1"; "pivot (1, 1, 1)"; "pivot (1)"]%string =
  Done (repeat ([], Some (lit "(1.5,1.5)"), []) 10 ++
        [([lit "Wrong number of arguments to 'pivot': expected 0 or 1, got 2"], None, []);
         ([lit "Unable to convert '1 1 1' to type 'N12_GLOBAL__N_15PointE': Expected 2 subvalues, got 3"], None, []);
         ([lit "Unable to convert '1' to type 'N12_GLOBAL__N_15PointE': Expected 2 subvalues, got 1"], None, [])],
        ex_world (Scene [] (ex_half, ex_half))).
Proof. vm_compute. reflexivity. Qed.

(** The commands of CompoundExample.cpp:184-190, a sum that is rounded, and items that are ignored. *)
Example C91_ex_numbers : ex_session ["sum_all ()"; "sum_all (1)"; "sum_all (1 2 3)"; "sum_all 1,2,3,5,8"; "get_arg_or_pi 1"; "get_arg_or_pi 2";
    "get_arg_or_pi ()"; "sum_all 16777216,1,-16777216"; "sum_all inf,-inf"; "get_arg_or_pi (4 five)"; "get_arg_or_pi (five 4)"; "sum_all (1 x)"]%string =
  Done ([([], Some (lit "0"), []); ([], Some (lit "1"), []); ([], Some (lit "6"), []); ([], Some (lit "19"), []); ([], Some (lit "1"), []);
         ([], Some (lit "2"), []); ([], Some (lit "3.14"), []); ([], Some (lit "0"), []); ([], Some (lit "-nan"), []); ([], Some (lit "4"), []);
         ([lit "Unable to convert 'five 4' to type 'optional<float>': Unable to convert 'five' to type 'float'"], None, []);
         ([lit "Unable to convert '1 x' to type 'vector<float>': Unable to convert 'x' to type 'float'"], None, [])],
        ex_world first_scene).
Proof. vm_compute. reflexivity. Qed.

Lemma ran {A B C D E} (st : outcome A) (go : A -> outcome (B * C)) (f : C -> D) (g : B -> E) s r w :
  (s0 <- st ;; x <- go s0 ;; Done (f (snd x), g (fst x))) = Done (r, w) -> st = Done s ->
  exists s' xs, go s = Done (s', xs) /\ f xs = r /\ g s' = w.
Proof.
  intros X ->. cbn [bind] in X. destruct (go s) as [[s' xs]|?]; [|discriminate X]. cbn [bind fst snd] in X.
  injection X as <- <-. now exists s', xs.
Qed.
Lemma ex_done l r w s : ex_session l = Done (r, w) -> start true = Done s ->
  exists s' xs, CompoundExample.run true ex_point ex_particle true true true 3 s (map lit l) = Done (s', xs) /\
    map reply xs = r /\ s_world s' = w.
Proof.
  exact (ran (start true) (fun s => CompoundExample.run true ex_point ex_particle true true true 3 s (map lit l))
             (map reply) s_world s r w).
Qed.

Local Notation ex_table := (table true ex_point).
Local Notation ex_acts := (acts true true).
Lemma ex_no_nul : no_nul ex_point.
Proof. now apply no_nul_lit. Qed.
Lemma ex_dialogue l r sc : Forall no_nul (map lit l) -> ex_session l = Done (r, ex_world sc) ->
  dialogue ex_table ex_acts (cfg_classes true default_cfg) first_scene (map lit l) sc r.
Proof.
  intros N X. apply (C91_session_iff true ex_point ex_particle true true true 3 ex_no_nul); [exact N|].
  destruct (begun true ex_point ex_particle true true true 3 ex_no_nul) as (s & E & _). exists s.
  destruct (ex_done _ _ _ s X E) as (s' & xs & H). exists s', xs. split; [exact E|exact H].
Qed.
Example C91_ex_dialogue : dialogue ex_table ex_acts (cfg_classes true default_cfg) first_scene (map lit ex_commands) ex_scene ex_replies.
Proof.
  apply ex_dialogue; [|exact C91_ex_run]. unfold ex_commands. cbn [map]. repeat constructor; vm_compute; intuition discriminate.
Qed.

(** The hypotheses of C91_add_get, C91_update_keeps and C91_still. *)
Example C91_ex_pair : denotes_pair true [lit "1"; lit "1.5"] (ex_one, ex_half).
Proof. apply (pair_value true ex_point). vm_compute. reflexivity. Qed.
Definition ex_still : scene := Scene [Body (lit "a") (ex_one, ex_half) (plus_zero, Fin true 0 (-149))] (ex_one, ex_one).
Lemma ex_not_zero x : match x with Fin _ 0 _ => False | _ => True end -> ~ zero x.
Proof. intros H (s & e & ->). exact H. Qed.
Example C91_ex_still : proper ex_still /\ denotes_value (float_kind true) [lit "2"] ex_two /\ (exists q, stands_for ex_two q) /\
  Forall (fun b => zero (fst (speed b)) /\ zero (snd (speed b)) /\ ~ zero (fst (at_ b)) /\ ~ zero (snd (at_ b))) (bodies ex_still) /\
  ex_acts ex_still (lit "particles.update") [[lit "2"]] [] ex_still [] None [].
Proof.
  assert (G : proper ex_still).
  { split; [|split; cbn; repeat split; cbn; lia]. constructor; [|constructor]. repeat split; cbn; lia. }
  assert (V : denotes_value (float_kind true) [lit "2"] ex_two) by (apply (proj1 (float_implements true)); vm_compute; reflexivity).
  split; [exact G|]. split; [exact V|]. split; [exists (dyadic 8388608 (-22)); now apply stands_signed|]. split.
  - constructor; [|constructor]. cbn [speed at_ fst snd]. split; [now exists false, (-149)%Z|]. split; [now exists true, (-149)%Z|].
    split; now apply ex_not_zero.
  - apply (acts_update true true ex_still [] [lit "2"] ex_two (bodies ex_still) V). apply all_move; [exact (proj1 G)|exact (float_in true _ _ V)|].
    vm_compute. reflexivity.
Qed.

(** The hypotheses of C91_sum_whole and C91_sum_one. *)
Example C91_ex_whole : numbers true [lit "1"; lit "-2"] [ex_one; Fin true 8388608 (-22)] /\
  Forall2 (fun x z => stands_for x (inject_Z z)) [ex_one; Fin true 8388608 (-22)] [1; -2]%Z /\ (total_size [1; -2]%Z < 1000000)%Z /\ ~ zero ex_one.
Proof.
  split; [apply numbers_value; vm_compute; reflexivity|]. split; [|split; [now vm_compute|now apply ex_not_zero]].
  constructor; [constructor; reflexivity|]. constructor; [constructor; reflexivity|constructor].
Qed.

(** * Assumptions *)
Print Assumptions C91_session_iff.
Print Assumptions C91_no_fault.
Print Assumptions C91_described.
Print Assumptions C91_add_get.
Print Assumptions C91_update_keeps.
Print Assumptions C91_still.
Print Assumptions C91_sum_whole.
Print Assumptions C91_sum_one.
Print Assumptions C91_sum_order_refuted.
Print Assumptions C91_first_counts.
Print Assumptions C91_no_number.
