(** C83: the commands of examples/properties, and when they have undefined behaviour. *)
From Coq Require Import Ascii String NArith ZArith QArith Qabs Bool PeanoNat Lqa Lia List.
Import ListNotations.
From Verif Require Import Util Base LexerSpec StringConv StringConvSpec StringConvProofs SerializerSpec Serializer
  SerializerProofs Lexer LexerMeta LexerProofs P_Lexer UMap Exec ExecSpec ExecProofs P_Exec
  P_Serializer FloatConv FloatConvSpec FloatSerializer FloatArith FloatRound FloatConvProofs P_Float FloatTextSpec P_FloatText UserTypes UserTypesSpec UserTypesProofs
  NamedExample NamedExampleSpec NamedExampleProofs FloatOps FloatOpsSpec FloatOpsProofs
  ExampleSession ExampleSpec ExampleProofs PropertiesExample PropertiesExampleSpec.

Local Notation length := List.length.
Local Open Scope nat_scope.

Lemma printf_d_canonical z : canonical z (printf_d z).
Proof.
  unfold printf_d. destruct (Z.ltb_spec z 0) as [L|L]; [|now apply dec_canonical].
  replace z with (- - z)%Z at 1 by lia. apply canonical_neg; [lia|]. apply dec_canonical. lia.
Qed.

Lemma canonical_same z a b : canonical z a -> canonical z b -> a = b.
Proof.
  destruct (Z_lt_le_dec z 0) as [L|L]; [|now apply canonical_unique].
  intros A B. inversion A; subst; [lia|lia|]. inversion B; subst; [lia|lia|].
  assert (z = z0) by lia. subst z0. f_equal. apply (canonical_unique z); [lia|assumption..].
Qed.

Lemma nth_error_same {A} (a b : list A) : (forall i, nth_error a i = nth_error b i) -> a = b.
Proof.
  revert b. induction a as [|x a IH]; intros [|y b] H; [reflexivity|discriminate (H 0)|discriminate (H 0)|].
  assert (E := H 0). injection E as ->. f_equal. apply IH. intros i. exact (H (S i)).
Qed.

Section Properties.
Variables (p : platform) (nm : naming) (uf : bool) (size_t : ctype) (nan_sign : bool).
Variable hypotf : fval -> fval -> fval.
Variable refuses : Z -> option bytes.
Variables sg catching : bool.
Variable d : nat.
Hypothesis Us : size_type size_t.
Hypothesis Hy : hypot_type hypotf.

Local Notation code := (code p nm uf size_t nan_sign hypotf refuses).
Local Notation table := (table p nm uf size_t).
Local Notation acts := (acts p nm uf size_t nan_sign hypotf refuses catching).
Local Notation goes_wrong := (goes_wrong p nm uf size_t nan_sign hypotf refuses catching).
Local Notation good := (proper_scene p size_t).
Local Notation world_of := (fun sc => World (width sc) (height sc) (data sc) None).
Local Notation the_aspect := (the_aspect nan_sign).
Local Notation the_diagonal := (the_diagonal hypotf).
Local Notation aspect := (aspect nan_sign).
Local Notation diagonal := (diagonal hypotf).
Local Notation serves := (serves sg commands good world_of).
Local Notation run := (run_prog sg (nested_exec code sg catching d)).

Lemma size_nonneg n : in_range p size_t n -> (0 <= n)%Z.
Proof. intros H. now apply (size_range p size_t Us) in H. Qed.

Lemma sized n : in_range p size_t n -> value_in binary32 (of_size n).
Proof. intros H. apply of_size_in. now apply size_nonneg. Qed.

Lemma as_float_iff n x : in_range p size_t n -> (as_float n x <-> of_size n = x).
Proof. intros H. unfold as_float. symmetry. apply of_size_nearest. now apply size_nonneg. Qed.

Lemma aspect_iff sc x : good sc -> (the_aspect sc x <-> aspect (world_of sc) = x).
Proof.
  intros [Gw Gh]. unfold PropertiesExampleSpec.the_aspect, PropertiesExample.aspect. cbn. split.
  - intros (a & b & A & B & Q). apply as_float_iff in A; [|exact Gw]. apply as_float_iff in B; [|exact Gh]. subst a b.
    apply fdiv_quotient; [now apply sized..|exact Q].
  - intros <-. exists (of_size (width sc)), (of_size (height sc)). split; [now apply as_float_iff|].
    split; [now apply as_float_iff|]. apply fdiv_quotient; [now apply sized..|reflexivity].
Qed.

Lemma diagonal_iff sc x : good sc -> (the_diagonal sc x <-> diagonal (world_of sc) = x).
Proof.
  intros [Gw Gh]. unfold PropertiesExampleSpec.the_diagonal, PropertiesExample.diagonal. cbn. split.
  - intros (a & b & A & B & ->). apply as_float_iff in A; [|exact Gw]. apply as_float_iff in B; [|exact Gh]. now subst a b.
  - intros <-. exists (of_size (width sc)), (of_size (height sc)). repeat split; now apply as_float_iff.
Qed.

Lemma float_value v x : denotes_value (float_kind uf) v x -> value_in binary32 x.
Proof. intros (s & _ & H). exact (value_in_conversion uf s x H). Qed.

Definition width_product (sc : scene) (x : fval) : fval := fmul nan_sign x (of_size (height sc)).

Lemma wanted_width_iff sc x y : good sc -> value_in binary32 x ->
  (wanted_width nan_sign sc x y <-> width_product sc x = y).
Proof.
  intros [Gw Gh] V. unfold wanted_width, width_product. split.
  - intros (h & A & Q). apply as_float_iff in A; [|exact Gh]. subst h. apply fmul_product; [exact V|now apply sized|exact Q].
  - intros <-. exists (of_size (height sc)). split; [now apply as_float_iff|]. apply fmul_product; [exact V|now apply sized|reflexivity].
Qed.

Definition the_scale (sc : scene) (x : fval) : fval := fdiv nan_sign x (diagonal (world_of sc)).

Lemma diagonal_in sc : good sc -> value_in binary32 (diagonal (world_of sc)).
Proof. intros [Gw Gh]. apply Hy; now apply sized. Qed.

Lemma aspect_in sc : good sc -> value_in binary32 (aspect (world_of sc)).
Proof. intros [Gw Gh]. apply fdiv_in; now apply sized. Qed.
Lemma aspect_text_iff sc t : good sc -> (aspect_text nan_sign sc t <-> toStringF (aspect (world_of sc)) = t).
Proof.
  intros G. split.
  - intros (x & X & S). apply aspect_iff in X; [|exact G]. subst x. apply C87_float_iff; [exact (aspect_in sc G)|exact S].
  - intros H. exists (aspect (world_of sc)). split; [now apply aspect_iff|]. apply C87_float_iff; [exact (aspect_in sc G)|exact H].
Qed.
Lemma diagonal_text_iff sc t : good sc -> (diagonal_text hypotf sc t <-> toStringF (diagonal (world_of sc)) = t).
Proof.
  intros G. split.
  - intros (x & X & S). apply diagonal_iff in X; [|exact G]. subst x. apply C87_float_iff; [exact (diagonal_in sc G)|exact S].
  - intros H. exists (diagonal (world_of sc)). split; [now apply diagonal_iff|]. apply C87_float_iff; [exact (diagonal_in sc G)|exact H].
Qed.

Lemma wanted_sizes_iff sc x y z : good sc -> value_in binary32 x ->
  (wanted_sizes nan_sign hypotf sc x y z <->
   fmul nan_sign (of_size (width sc)) (the_scale sc x) = y /\ fmul nan_sign (of_size (height sc)) (the_scale sc x) = z).
Proof.
  intros G V. assert (Dg := diagonal_in sc G). destruct G as [Gw Gh]. unfold wanted_sizes, the_scale.
  assert (Sc : value_in binary32 (fdiv nan_sign x (diagonal (world_of sc)))) by now apply fdiv_in.
  split.
  - intros (g & scale & a & b & D & S & A & B & Y & Z). apply diagonal_iff in D; [|now split]. subst g.
    apply fdiv_quotient in S; [|exact V|exact Dg]. subst scale. apply as_float_iff in A; [|exact Gw].
    apply as_float_iff in B; [|exact Gh]. subst a b. split; (apply fmul_product; [now apply sized|exact Sc|assumption]).
  - intros [<- <-]. exists (diagonal (world_of sc)), (fdiv nan_sign x (diagonal (world_of sc))), (of_size (width sc)), (of_size (height sc)).
    split; [now apply diagonal_iff|]. split; [apply fdiv_quotient; [exact V|exact Dg|reflexivity]|].
    split; [now apply as_float_iff|]. split; [now apply as_float_iff|].
    split; (apply fmul_product; [now apply sized|exact Sc|reflexivity]).
Qed.

Lemma resized_short l n : (0 <= n <= Z.of_nat (length l))%Z -> resized l n (firstn (Z.to_nat n) l).
Proof.
  intros H. assert (E : length (firstn (Z.to_nat n) l) = Z.to_nat n) by (rewrite firstn_length; lia).
  split; [lia|]. intros i L. rewrite E in L. clear E. assert (K : i < length l) by lia. clear H.
  revert l i L K. induction (Z.to_nat n) as [|k IH]; intros l i L K; [lia|]. destruct l as [|a l]; [cbn in K; lia|].
  destruct i; [reflexivity|]. cbn [firstn nth_error nth]. apply IH; cbn in K; lia.
Qed.

Lemma resized_long l n : (Z.of_nat (length l) < n)%Z -> resized l n (l ++ repeat 0%Z (Z.to_nat n - length l)).
Proof.
  intros H. split; [rewrite app_length, repeat_length; lia|]. intros i L. rewrite app_length, repeat_length in L.
  destruct (Nat.lt_ge_cases i (length l)) as [K|K].
  - rewrite nth_error_app1 by exact K. now apply nth_error_nth'.
  - rewrite nth_error_app2, (nth_overflow l) by exact K. apply nth_error_repeat. lia.
Qed.

Lemma resized_unique l n a b : resized l n a -> resized l n b -> a = b.
Proof.
  intros [La Ha] [Lb Hb]. assert (E : length a = length b) by lia. apply nth_error_same. intros i.
  destruct (Nat.lt_ge_cases i (length a)) as [K|K]; [rewrite Ha, Hb; [reflexivity|lia|exact K]|].
  rewrite (proj2 (nth_error_None a i) K). symmetry. apply nth_error_None. lia.
Qed.

Definition new_data (l : list Z) (n : Z) : list Z :=
  if (n <=? Z.of_nat (length l))%Z then firstn (Z.to_nat n) l else l ++ repeat 0%Z (Z.to_nat n - length l).
Lemma new_data_resized l n : (0 <= n)%Z -> resized l n (new_data l n).
Proof.
  intros H. unfold new_data. destruct (Z.leb_spec n (Z.of_nat (length l))); [apply resized_short; lia|now apply resized_long].
Qed.

Lemma listed_total l : exists t, listed l t.
Proof.
  induction l as [|z l (t & H)]; [exists []; constructor|]. eexists. constructor; [apply printf_d_canonical|exact H].
Qed.

Lemma log_values_run l : forall t k s inp es out sid, listed l t ->
  run sid s (ctx inp es out) (log_values l k) = run sid s (ctx inp es (out ++ t)) k.
Proof.
  induction l as [|z l IH]; intros t k s inp es out sid H; inversion H; subst.
  - now rewrite app_nil_r.
  - cbn [log_values]. cbn [run_prog]. change (cc_output (ctx inp es out) (printf_d z ++ lit " ")) with (ctx inp es (out ++ printf_d z ++ lit " ")). erewrite IH; [|eassumption].
    rewrite (canonical_same _ _ _ H2 (printf_d_canonical z)), <- app_assoc. cbn [lit list_ascii_of_string app].
    rewrite <- app_assoc. reflexivity.
Qed.
Lemma world_kept (s : state world fn) w : s_world s = w -> set_world s w = s.
Proof. intros <-. now destruct s. Qed.

Lemma float_fits : fits (float_ser uf) (float_param uf).
Proof. exact (implements_fits _ _ (float_implements uf)). Qed.
Lemma size_fits : fits (size_ser p nm size_t) (size_param p nm size_t).
Proof. exact (implements_fits _ _ (size_implements p nm size_t)). Qed.

Lemma agreed : Forall2 (agree code) commands table.
Proof.
  assert (Ff := float_fits). assert (Fs := size_fits).
  repeat apply Forall2_cons; try apply Forall2_nil; (split; [reflexivity|]); (split; [discriminate|]);
    (split; [cbn; repeat constructor; cbn; intuition discriminate|]); cbn [snd];
    repeat first [assumption|apply Forall2_cons|apply Forall2_nil].
Qed.

Lemma one_value T (K : kind (carrier T)) v x : implements T K -> denotes_value K v x -> converts [T] [v] (x, tt).
Proof. intros [A _] H. apply converts_cons; [now apply A|constructor]. Qed.

Lemma size_value v n : denotes_value (size_kind p nm size_t) v n -> in_range p size_t n.
Proof. intros (w & _ & V). inversion V; subst; assumption. Qed.

Lemma float_one v (x : fval) : denotes_value (float_kind uf) v x -> converts [float_ser uf] [v] ((x, tt) : args_of [float_ser uf]).
Proof. exact (one_value (float_ser uf) (float_kind uf) v x (float_implements uf)). Qed.
Lemma size_one v (n : Z) : denotes_value (size_kind p nm size_t) v n ->
  converts [size_ser p nm size_t] [v] ((n, tt) : args_of [size_ser p nm size_t]).
Proof. exact (one_value (size_ser p nm size_t) (size_kind p nm size_t) v n (size_implements p nm size_t)). Qed.

Local Notation taken := (taken code).

Lemma only_one (f : fn) : taken [f] f.
Proof. exists [], []. split; [reflexivity|intros ? []]. Qed.
Lemma the_first (f g : fn) : taken [f; g] f.
Proof. exists [], [g]. split; [reflexivity|intros ? []]. Qed.
Lemma the_second (f g : fn) : length (f_params (code f)) <> length (f_params (code g)) -> taken [f; g] g.
Proof. intros H. exists [f], []. split; [reflexivity|]. now intros ? [<-|[]]. Qed.

Lemma float_text x : rtext (RValue (float_ser uf)) x = Done (Some (toStringF x)).
Proof. reflexivity. Qed.
Lemma size_text n a : canonical n a -> (0 <= n)%Z -> rtext (RValue (size_ser p nm size_t)) n = Done (Some a).
Proof.
  intros C L. rewrite (canonical_unique _ _ _ L C (dec_canonical n L)).
  destruct Us as [-> |[-> | ->]]; reflexivity.
Qed.

Definition exec := exec_input code sg catching d.

Lemma exec_acts sc s name pos nd sc' es ret out : serves sc s -> acts sc name pos nd sc' es ret out ->
  exists inp s', exec s (Input name pos nd) = Done (s', inl (Result inp es ret out)) /\ serves sc' s'.
Proof.
  intros R A. assert (Hw := proj1 (proj2 (proj2 R))). assert (G := proj2 (proj2 (proj2 R))). cbn beta in Hw.
  assert (Kp := world_kept s _ Hw).
  assert (Rd : s_world s = world_of sc) by exact Hw.
  destruct A as
    [nd a b Ca Cb|nd x X|nd v x y n r V Wn Wh X|nd x X|nd v x y z n m r V Wn Wy Wz X|nd x X|nd x X|name nd v x N V
    |nd t L|nd a L|nd v n l a V Nr Rz Ca|nd v n what e V Rf Ec Ex].
  - apply (run_acts code sg catching d commands good world_of sc s _ [FPrintSize] FPrintSize [] nd tt sc [] _ tt None R); try discriminate;
      [cbn; tauto|apply only_one|constructor|exact G| |reflexivity].
    intros sid _. cbn [PropertiesExample.code f_body print_size run_prog]. rewrite ctx_line, Hw, Kp. cbn [w_width w_height].
    rewrite (canonical_same _ _ _ Ca (dec_canonical _ (size_nonneg _ (proj1 G)))).
    rewrite (canonical_same _ _ _ Cb (dec_canonical _ (size_nonneg _ (proj2 G)))). unfold printf_u. rewrite <- !app_assoc. reflexivity.
  - apply aspect_text_iff in X; [|exact G]. subst x.
    apply (run_acts code sg catching d commands good world_of sc s _ [FAspect false; FAspect true] (FAspect false) [] nd tt sc [] [] (aspect (world_of sc)) _ R);
      try discriminate; [cbn; tauto|apply the_first|constructor|exact G| |reflexivity].
    intros sid _. cbn [PropertiesExample.code half nth property f_body get_aspect run_prog]. now rewrite Hw, Kp.
  - assert (Vx := float_value v x V). apply wanted_width_iff in Wn; [|exact G|exact Vx].
    assert (Gn : good (Scene n (height sc) (data sc))) by (split; [exact (proj1 Wh)|exact (proj2 G)]).
    apply aspect_text_iff in X; [|exact Gn]. subst r.
    apply (to_size_whole p size_t Us) in Wh; [|subst y; apply fmul_in; [exact Vx|apply sized, G]].
    apply (run_acts code sg catching d commands good world_of sc s _ [FAspect false; FAspect true] (FAspect true) [v] nd (x, tt)
             (Scene n (height sc) (data sc)) [] [] (aspect (world_of (Scene n (height sc) (data sc)))) _ R);
      try discriminate; [cbn; tauto|apply the_second; discriminate|exact (float_one v x V)|exact Gn| |reflexivity].
    intros sid _. cbn [PropertiesExample.code half nth property f_body fst set_aspect andThen run_prog]. rewrite Hw. cbn [w_height].
    unfold width_product in Wn. rewrite Wn. unfold assign_size. rewrite Wh. cbn [andThen run_prog get_aspect s_world set_world].
    rewrite Hw. reflexivity.
  - apply diagonal_text_iff in X; [|exact G]. subst x.
    apply (run_acts code sg catching d commands good world_of sc s _ [FDiagonal false; FDiagonal true] (FDiagonal false) [] nd tt sc [] [] (diagonal (world_of sc)) _ R);
      try discriminate; [cbn; tauto|apply the_first|constructor|exact G| |reflexivity].
    intros sid _. cbn [PropertiesExample.code half nth property f_body get_diagonal run_prog]. now rewrite Hw, Kp.
  - assert (Vx := float_value v x V). apply wanted_sizes_iff in Wn; [|exact G|exact Vx]. destruct Wn as [Ey Ez].
    assert (Gn : good (Scene n m (data sc))) by (split; [exact (proj1 Wy)|exact (proj1 Wz)]).
    apply diagonal_text_iff in X; [|exact Gn]. subst r.
    assert (Sc : value_in binary32 (the_scale sc x)) by (apply fdiv_in; [exact Vx|now apply diagonal_in]).
    apply (to_size_whole p size_t Us) in Wy; [|subst y; apply fmul_in; [apply sized, G|exact Sc]].
    apply (to_size_whole p size_t Us) in Wz; [|subst z; apply fmul_in; [apply sized, G|exact Sc]].
    apply (run_acts code sg catching d commands good world_of sc s _ [FDiagonal false; FDiagonal true] (FDiagonal true) [v] nd (x, tt)
             (Scene n m (data sc)) [] [] (diagonal (world_of (Scene n m (data sc)))) _ R);
      try discriminate; [cbn; tauto|apply the_second; discriminate|exact (float_one v x V)|exact Gn| |reflexivity].
    intros sid _. cbn [PropertiesExample.code half nth property f_body fst set_diagonal andThen run_prog]. rewrite Hw. cbn [w_height w_width].
    unfold the_scale in Ey, Ez. rewrite Ey, Ez. unfold assign_size. rewrite Wy, Wz.
    cbn [andThen run_prog get_diagonal s_world set_world]. rewrite Hw. reflexivity.
  - apply aspect_text_iff in X; [|exact G]. subst x.
    apply (run_acts code sg catching d commands good world_of sc s _ [FReadonlyAspect false; FReadonlyAspect true] (FReadonlyAspect false) [] nd tt sc [] [] (aspect (world_of sc)) _ R);
      try discriminate; [cbn; tauto|apply the_first|constructor|exact G| |reflexivity].
    intros sid _. cbn [PropertiesExample.code half nth const_bound_property f_body get_aspect run_prog]. now rewrite Hw, Kp.
  - apply diagonal_text_iff in X; [|exact G]. subst x.
    apply (run_acts code sg catching d commands good world_of sc s _ [FReadonlyDiagonal false; FReadonlyDiagonal true] (FReadonlyDiagonal false) [] nd tt sc [] [] (diagonal (world_of sc)) _ R);
      try discriminate; [cbn; tauto|apply the_first|constructor|exact G| |reflexivity].
    intros sid _. cbn [PropertiesExample.code half nth const_bound_property f_body get_diagonal run_prog]. now rewrite Hw, Kp.
  - destruct N as [-> | ->].
    + apply (run_acts code sg catching d commands good world_of sc s _ [FReadonlyAspect false; FReadonlyAspect true] (FReadonlyAspect true) [v] nd (x, tt)
             sc [lit "This property is read-only"] [] (aspect (world_of sc)) (Some (toStringF (aspect (world_of sc)))) R);
      try discriminate; [cbn; tauto|apply the_second; discriminate|exact (float_one v x V)|exact G| |reflexivity].
      intros sid _. cbn [PropertiesExample.code half nth const_bound_property f_body get_aspect run_prog]. now rewrite ctx_report, Hw, Kp.
    + apply (run_acts code sg catching d commands good world_of sc s _ [FReadonlyDiagonal false; FReadonlyDiagonal true] (FReadonlyDiagonal true) [v] nd (x, tt)
             sc [lit "This property is read-only"] [] (diagonal (world_of sc)) (Some (toStringF (diagonal (world_of sc)))) R);
      try discriminate; [cbn; tauto|apply the_second; discriminate|exact (float_one v x V)|exact G| |reflexivity].
      intros sid _. cbn [PropertiesExample.code half nth const_bound_property f_body get_diagonal run_prog]. now rewrite ctx_report, Hw, Kp.
  - apply (run_acts code sg catching d commands good world_of sc s _ [FData] FData [] nd tt sc [] _ tt None R); try discriminate;
      [cbn; tauto|apply only_one|constructor|exact G| |reflexivity].
    intros sid _. cbn [PropertiesExample.code f_body print_data run_prog]. rewrite Hw, Kp. cbn [w_data].
    change (cc_output (ctx (Input (lit "data") [] nd) [] []) (lit "{ ")) with (ctx (Input (lit "data") [] nd) [] (lit "{ ")).
    rewrite (log_values_run _ t) by exact L. cbn [run_prog].
    change (cc_output (ctx (Input (lit "data") [] nd) [] (lit "{ " ++ t)) (lit "}")) with (ctx (Input (lit "data") [] nd) [] ((lit "{ " ++ t) ++ lit "}")).
    now rewrite <- app_assoc.
  - apply (run_acts code sg catching d commands good world_of sc s _ [FDataSize false; FDataSize true] (FDataSize false) [] nd tt sc [] []
             (Z.of_nat (length (data sc))) _ R);
      try discriminate; [cbn; tauto|apply the_first|constructor|exact G| |apply (size_text _ a L); lia].
    intros sid _. cbn [PropertiesExample.code half nth property f_body get_size run_prog]. now rewrite Hw, Kp.
  - assert (Ln : (0 <= n)%Z).
    { apply size_nonneg. exact (size_value v n V). }
    rewrite (resized_unique _ _ _ _ Rz (new_data_resized _ n Ln)).
    assert (El : Z.of_nat (length (new_data (data sc) n)) = n) by apply (new_data_resized _ n Ln).
    apply (run_acts code sg catching d commands good world_of sc s _ [FDataSize false; FDataSize true] (FDataSize true) [v] nd (n, tt)
             (Scene (width sc) (height sc) (new_data (data sc) n)) [] [] n (Some a) R);
      try discriminate; [cbn; tauto|apply the_second; discriminate|exact (size_one v n V)|exact G| |exact (size_text _ a Ca Ln)].
    intros sid _. cbn [PropertiesExample.code half nth property f_body fst resize andThen run_prog]. rewrite Hw. cbn [w_data].
    unfold new_data in *. destruct (Z.leb_spec n (Z.of_nat (length (data sc)))) as [Le|Le].
    + cbn [andThen run_prog get_size s_world set_world set_data w_data w_width w_height w_wrong]. rewrite El. reflexivity.
    + destruct (refuses n) as [what|] eqn:Er; [elim (Nr what); now split|].
      cbn [andThen run_prog get_size s_world set_world set_data w_data w_width w_height w_wrong]. rewrite El. reflexivity.
  - exists (Input (lit "data.size") [v] nd), s. split; [|exact R]. destruct Rf as [Le Er].
    unfold exec. rewrite (exn_text_det _ _ Ex).
    rewrite (run_throws code sg catching d commands good world_of sc s _ [FDataSize false; FDataSize true] (FDataSize true) [v] nd (n, tt) s [] [] (StdException what) R);
      try discriminate; [rewrite Ec; reflexivity|cbn; tauto|apply the_second; discriminate|exact (size_one v n V)|].
    intros sid _. cbn [PropertiesExample.code half nth property f_body fst resize andThen run_prog]. rewrite Hw. cbn [w_data].
    destruct (Z.leb_spec n (Z.of_nat (length (data sc)))); [lia|]. rewrite Er. reflexivity.
Qed.
Lemma exec_wrong sc s name pos nd f : serves sc s -> goes_wrong sc name pos nd f ->
  ends w_wrong f (exec s (Input name pos nd)).
Proof.
  intros R A. assert (Hw := proj1 (proj2 (proj2 R))). assert (G := proj2 (proj2 (proj2 R))). cbn beta in Hw.
  destruct A as [nd v x y V Wn N|nd v x y z V Wn N|nd v n what V Rf Ec].
  - assert (Vx := float_value v x V). apply wanted_width_iff in Wn; [|exact G|exact Vx].
    apply (to_size_none p size_t Us) in N; [|subst y; apply fmul_in; [exact Vx|apply sized, G]].
    right. left. eexists _, _. split.
    + eapply (run_done code sg catching d commands good world_of sc s _ [FAspect false; FAspect true] (FAspect true) [v] nd (x, tt) _ [] [] _ _ R);
      try discriminate; [cbn; tauto|apply the_second; discriminate|exact (float_one v x V)| |].
      * intros sid _. cbn [PropertiesExample.code half nth property f_body fst set_aspect andThen run_prog]. rewrite Hw. cbn [w_height].
        unfold width_product in Wn. rewrite Wn. unfold assign_size. rewrite N. cbn [andThen run_prog get_aspect s_world set_world]. reflexivity.
      * reflexivity.
    + reflexivity.
  - assert (Vx := float_value v x V). apply wanted_sizes_iff in Wn; [|exact G|exact Vx]. destruct Wn as [Ey Ez].
    assert (Sc : value_in binary32 (the_scale sc x)) by (apply fdiv_in; [exact Vx|now apply diagonal_in]).
    assert (Vy : value_in binary32 y) by (subst y; apply fmul_in; [apply sized, G|exact Sc]).
    assert (Vz : value_in binary32 z) by (subst z; apply fmul_in; [apply sized, G|exact Sc]).
    right. left. pose (w' := World (match to_size p size_t y with Some n => n | None => width sc end) (height sc) (data sc) (Some Overflow)).
    exists (set_world s w'). eexists. split.
    + apply (run_done code sg catching d commands good world_of sc s _ [FDiagonal false; FDiagonal true] (FDiagonal true) [v] nd (x, tt)
               (set_world s w') [] [] (diagonal w') (Some (toStringF (diagonal w'))) R);
      try discriminate; [cbn; tauto|apply the_second; discriminate|exact (float_one v x V)| |].
      * intros sid _. cbn [PropertiesExample.code half nth property f_body fst set_diagonal andThen run_prog]. rewrite Hw. cbn [w_height w_width].
        unfold the_scale in Ey, Ez. rewrite Ey, Ez. unfold assign_size, w'. destruct (to_size p size_t y) as [n|] eqn:E.
        -- destruct N as [N|N]; [apply (to_size_none p size_t Us) in N; [congruence|exact Vy]|].
           apply (to_size_none p size_t Us) in N; [|exact Vz]. rewrite N.
           cbn [andThen run_prog get_diagonal s_world set_world]. rewrite Hw. reflexivity.
        -- cbn [andThen run_prog get_diagonal s_world set_world]. rewrite Hw. reflexivity.
      * reflexivity.
    + reflexivity.
  - right. right. split; [reflexivity|]. destruct Rf as [Le Er]. eexists s, _. unfold exec.
    rewrite (run_throws code sg catching d commands good world_of sc s _ [FDataSize false; FDataSize true] (FDataSize true) [v] nd (n, tt) s [] [] (StdException what) R);
      try discriminate; [rewrite Ec; reflexivity|cbn; tauto|apply the_second; discriminate|exact (size_one v n V)|].
    intros sid _. cbn [PropertiesExample.code half nth property f_body fst resize andThen run_prog]. rewrite Hw. cbn [w_data].
    destruct (Z.leb_spec n (Z.of_nat (length (data sc)))); [lia|]. rewrite Er. reflexivity.
Qed.

Lemma aspect_total sc : good sc -> exists t, aspect_text nan_sign sc t.
Proof. intros G. exists (toStringF (aspect (world_of sc))). now apply aspect_text_iff. Qed.
Lemma diagonal_total sc : good sc -> exists t, diagonal_text hypotf sc t.
Proof. intros G. exists (toStringF (diagonal (world_of sc))). now apply diagonal_text_iff. Qed.

Lemma whole_or_not x : value_in binary32 x -> (exists n, whole_part p size_t x n) \/ no_whole_part p size_t x.
Proof.
  intros V. destruct (to_size p size_t x) as [n|] eqn:E.
  - left. exists n. now apply (to_size_whole p size_t Us).
  - right. now apply (to_size_none p size_t Us).
Qed.

Lemma accepted_nil pos : accepted [] pos -> pos = [].
Proof. now inversion 1. Qed.
Lemma accepted_one P pos : accepted [P] pos -> exists v x, pos = [v] /\ p_ok P v x.
Proof. intros H. inversion H as [|? v ? ? (x & O) H']; subst. inversion H'; subst. now exists v, x. Qed.

Lemma acts_total sc name pos nd overloads Ps : good sc -> In (name, overloads) table -> In Ps overloads -> accepted Ps pos ->
  (exists sc' es ret out, acts sc name pos nd sc' es ret out) \/ exists f, goes_wrong sc name pos nd f.
Proof.
  intros G J I A. destruct (aspect_total sc G) as (a & Ha). destruct (diagonal_total sc G) as (g & Hg).
  cbn in J. repeat (destruct J as [J|J]; [injection J as <- <-|]); [..|destruct J].
  - destruct I as [<-|[]]. apply accepted_nil in A. subst pos. left. eexists _, _, _, _.
    apply acts_print; apply dec_canonical; apply size_nonneg; apply G.
  - destruct I as [<-|[<-|[]]].
    + apply accepted_nil in A. subst pos. left. eexists _, _, _, _. apply acts_aspect, Ha.
    + apply accepted_one in A. destruct A as (v & x & -> & V). cbn in x, V. assert (Vx := float_value v x V).
      assert (Wn : wanted_width nan_sign sc x (width_product sc x)) by now apply wanted_width_iff.
      destruct (whole_or_not (width_product sc x)) as [(n & Wh)|N]; [apply fmul_in; [exact Vx|apply sized, G]| |].
      * assert (Gn : good (Scene n (height sc) (data sc))) by (split; [exact (proj1 Wh)|exact (proj2 G)]).
        destruct (aspect_total _ Gn) as (r & X). left. eexists _, _, _, _. eapply acts_set_aspect; eauto.
      * right. eexists. eapply wrong_aspect; eauto.
  - destruct I as [<-|[<-|[]]].
    + apply accepted_nil in A. subst pos. left. eexists _, _, _, _. apply acts_diagonal, Hg.
    + apply accepted_one in A. destruct A as (v & x & -> & V). cbn in x, V. assert (Vx := float_value v x V).
      assert (Wn := proj2 (wanted_sizes_iff sc x _ _ G Vx) (conj eq_refl eq_refl)).
      assert (Sc : value_in binary32 (the_scale sc x)) by (apply fdiv_in; [exact Vx|now apply diagonal_in]).
      destruct (whole_or_not (fmul nan_sign (of_size (width sc)) (the_scale sc x))) as [(n & Wy)|N]; [apply fmul_in; [apply sized, G|exact Sc]| |].
      2: { right. eexists. eapply wrong_diagonal; eauto. }
      destruct (whole_or_not (fmul nan_sign (of_size (height sc)) (the_scale sc x))) as [(m & Wz)|N]; [apply fmul_in; [apply sized, G|exact Sc]| |].
      2: { right. eexists. eapply wrong_diagonal; eauto. }
      assert (Gn : good (Scene n m (data sc))) by (split; [exact (proj1 Wy)|exact (proj1 Wz)]).
      destruct (diagonal_total _ Gn) as (r & X). left. eexists _, _, _, _. eapply acts_set_diagonal; eauto.
  - left. destruct I as [<-|[<-|[]]].
    + apply accepted_nil in A. subst pos. eexists _, _, _, _. apply acts_readonly_aspect, Ha.
    + apply accepted_one in A. destruct A as (v & x & -> & V). eexists _, _, _, _. eapply acts_readonly; [auto|exact V].
  - left. destruct I as [<-|[<-|[]]].
    + apply accepted_nil in A. subst pos. eexists _, _, _, _. apply acts_readonly_diagonal, Hg.
    + apply accepted_one in A. destruct A as (v & x & -> & V). eexists _, _, _, _. eapply acts_readonly; [auto|exact V].
  - destruct I as [<-|[]]. apply accepted_nil in A. subst pos. left. destruct (listed_total (data sc)) as (t & L).
    eexists _, _, _, _. apply acts_data, L.
  - destruct I as [<-|[<-|[]]].
    + apply accepted_nil in A. subst pos. left. eexists _, _, _, _. apply acts_size, dec_canonical. lia.
    + apply accepted_one in A. destruct A as (v & n & -> & V). cbn in n, V.
      assert (Ln := size_nonneg n (size_value v n V)).
      assert (D : (forall what, ~ refused refuses (data sc) n what) \/ exists what, refused refuses (data sc) n what).
      { destruct (Z_lt_le_dec (Z.of_nat (length (data sc))) n) as [L|L].
        - destruct (refuses n) as [what|] eqn:E; [right; exists what; now split|left; intros what [_ X]; congruence].
        - left. intros what [X _]. lia. }
      destruct D as [D|(what & D)].
      * left. eexists _, _, _, _. eapply acts_resize; [exact V|exact D|now apply new_data_resized|now apply dec_canonical].
      * destruct (Bool.bool_dec catching true) as [Ec|Ec].
        -- left. eexists _, _, _, _. eapply acts_refused; [exact V|exact D|exact Ec|apply exn_text_spec].
        -- right. eexists. eapply wrong_resize; [exact V|exact D|now destruct catching].
Qed.

Lemma is_implemented : implemented code w_wrong sg catching d commands table acts goes_wrong good world_of.
Proof.
  split.
  - reflexivity.
  - exact agreed.
  - cbn. repeat constructor; cbn; intuition discriminate.
  - intros. now apply exec_acts with (sc := sc).
  - intros. now apply exec_wrong with (sc := sc).
  - intros. now apply acts_total with (overloads := overloads) (Ps := Ps).
Qed.

Lemma first_good : good first_scene.
Proof. split; apply (size_range p size_t Us); assert (B := size_max_bounds p size_t Us); cbn in *; lia. Qed.

(** ** What can be said about the specification alone *)

(** The answer of a setter is what the getter answers afterwards. *)
Lemma setter_getter sc name v nd sc' ret out nd' : acts sc name [v] nd sc' [] ret out ->
  acts sc' name [] nd' sc' [] ret out.
Proof.
  intros A. inversion A; subst; try constructor; try assumption.
  match goal with H : resized _ _ _ |- _ => destruct H as [Lq _] end. cbn [data]. rewrite Lq. assumption.
Qed.

(** A command that sets something. *)
Definition sets (name : bytes) (pos : list (list bytes)) : Prop :=
  In name [lit "window.aspect"; lit "window.diagonal"; lit "data.size"] /\ length pos = 1.

Lemma acts_unset sc name pos nd sc' es ret out : acts sc name pos nd sc' es ret out -> ~ sets name pos -> sc' = sc.
Proof. intros A N. destruct A; try reflexivity; elim N; (split; [cbn; tauto|reflexivity]). Qed.

Lemma wrong_sets sc name pos nd f : goes_wrong sc name pos nd f -> sets name pos.
Proof. intros A. destruct A; (split; [cbn; tauto|reflexivity]). Qed.

(** Only these change the height. *)
Lemma acts_height sc name pos nd sc' es ret out : acts sc name pos nd sc' es ret out ->
  ~ (name = lit "window.diagonal" /\ length pos = 1) -> height sc' = height sc.
Proof. intros A N. destruct A; try reflexivity. elim N. now split. Qed.
End Properties.

(** ** Rounding *)

Local Open Scope Q_scope.

Lemma whole_float n : (0 <= n < 2 ^ 24)%Z -> exists m e, magnitude_in binary32 m e /\ inject_Z n == inject_Z m * 2 ^ e.
Proof.
  intros H. destruct (Z.eq_dec n 0) as [->|Nz].
  - exists 0%Z, (-149)%Z. split; [repeat split; cbn; lia|]. change (inject_Z 0) with 0. ring.
  - assert (L := Z.log2_spec n ltac:(lia)). assert (L24 : (Z.log2 n < 24)%Z) by (apply Z.log2_lt_pow2; lia).
    assert (Lp := Z.log2_nonneg n). set (k := Z.log2 n) in *.
    exists (n * 2 ^ (23 - k))%Z, (k - 23)%Z.
    assert (P : (2 ^ k * 2 ^ (23 - k) = 2 ^ 23)%Z) by (rewrite <- Z.pow_add_r by lia; f_equal; lia).
    assert (P' : (2 ^ Z.succ k * 2 ^ (23 - k) = 2 ^ 24)%Z) by (rewrite <- Z.pow_add_r by lia; f_equal; lia).
    assert (Q : (0 < 2 ^ (23 - k))%Z) by (apply Z.pow_pos_nonneg; lia).
    split.
    + unfold magnitude_in. change (prec binary32) with 24%Z. change (emin binary32) with (-149)%Z. change (emax binary32) with 104%Z.
      change (24 - 1)%Z with 23%Z. split; [split; nia|]. split; [lia|]. intros X. nia.
    + rewrite inject_Z_mult, pow2_Z by lia. rewrite <- Qmult_assoc, <- pow2_add. replace (23 - k + (k - 23))%Z with 0%Z by lia.
      change (2 ^ 0) with 1. ring.
Qed.

(** Sizes below 2^24 are floats. *)
Lemma as_float_small n x : (0 <= n < 2 ^ 24)%Z -> as_float n x -> exists m e, x = Fin false m e /\ inject_Z n == inject_Z m * 2 ^ e.
Proof.
  intros H A. destruct (whole_float n H) as (m & e & M & E). unfold as_float in A.
  assert (N := nearest_exact binary32 (inject_Z n) m e binary32_sane M E).
  destruct A as [m' e' _ N'|T]; [|elim (not_too_large binary32 m e (inject_Z n) binary32_sane M E T)].
  destruct (nearest_unique _ _ _ _ _ _ binary32_sane N N') as [-> ->]. now exists m', e'.
Qed.

(** The error of rounding: half a unit in the last place. *)
Lemma nearest_error neg q m e : 0 <= q -> nearest_float neg q (Fin neg m e) ->
  Qabs (q - inject_Z m * 2 ^ e) <= q * 2 ^ (-24) \/ q <= 2 ^ (-126) /\ inject_Z m * 2 ^ e <= 2 ^ (-126).
Proof.
  intros P N. inversion N as [m' e' T M|]; subst.
  destruct (Qlt_le_dec 0 q) as [Hq|Hq].
  2: { left. assert (Z : q == 0) by lra. destruct (nearest_zero_iff q m e Z M) as [-> ->]. rewrite Z. now vm_compute. }
  destruct (round_fmt binary32 q) as [m' e'] eqn:R.
  destruct (round_fmt_spec binary32 q m' e' binary32_sane Hq R) as (TL & NM & Er).
  assert (L : (e' <= emax binary32)%Z) by (destruct (Z_le_gt_dec e' (emax binary32)); [assumption|elim T; apply TL; lia]).
  destruct (nearest_unique _ _ _ _ _ _ binary32_sane M (NM L)) as [-> ->].
  destruct (ilog_spec 2 q two_le_two Hq) as [L1 L2]. change (inject_Z 2) with 2 in L1, L2.
  change (emin binary32) with (-149)%Z in Er. change (prec binary32) with 24%Z in Er.
  destruct (Z_le_gt_dec (-149) (ilog 2 q - 24 + 1)) as [B|B].
  - left. rewrite Z.max_r in Er by lia. eapply Qle_trans; [exact Er|].
    replace (ilog 2 q - 24 + 1)%Z with (ilog 2 q + -23)%Z by lia. rewrite pow2_add.
    setoid_replace (q * 2 ^ (-24)) with ((1 # 2) * (q * 2 ^ (-23))) by (change (2 ^ (-24)) with ((1 # 2) * 2 ^ (-23)); ring).
    apply Qmult_le_l; [reflexivity|]. apply Qmult_le_compat_r; [exact L1|]. now vm_compute.
  - right. assert (Hs : q <= 2 ^ (-126)) by (apply Qlt_le_weak; eapply Qlt_le_trans; [exact L2|]; apply pow2_le; lia).
    split; [exact Hs|].
    assert (Mi : magnitude_in binary32 (2 ^ 23) (-149)) by (repeat split; cbn; lia).
    destruct M as [_ M]. destruct (M _ _ Mi) as [M1 _].
    assert (X : inject_Z (2 ^ 23) * 2 ^ (-149) == 2 ^ (-126)) by now vm_compute.
    rewrite X in M1. revert M1. apply Qabs_case; apply Qabs_case; intros; lra.
Qed.

(** Rounding does not pass a float. *)
Lemma nearest_below neg q m e b k : q <= inject_Z b * 2 ^ k -> magnitude_in binary32 b k ->
  nearest_float neg q (Fin neg m e) -> inject_Z m * 2 ^ e <= inject_Z b * 2 ^ k.
Proof.
  intros L M N. inversion N as [m' e' _ (_ & H)|]; subst. destruct (H b k M) as [H1 _].
  revert H1. apply Qabs_case; apply Qabs_case; intros; lra.
Qed.

Lemma nearest_below_finite neg q y b k : q <= inject_Z b * 2 ^ k -> magnitude_in binary32 b k ->
  nearest_float neg q y -> exists m e, y = Fin neg m e /\ magnitude_in binary32 m e /\ inject_Z m * 2 ^ e <= inject_Z b * 2 ^ k.
Proof.
  intros L M N. destruct N as [m e T H|T].
  - exists m, e. split; [reflexivity|]. split; [apply H|]. exact (nearest_below neg q m e b k L M (nearest_finite neg q m e T H)).
  - exfalso. apply (not_too_large binary32 b k _ binary32_sane M (Qeq_refl _)). unfold too_large in *. lra.
Qed.

Lemma nearest_above neg q y b k : inject_Z b * 2 ^ k <= q -> magnitude_in binary32 b k -> nearest_float neg q y ->
  (exists s, y = Inf s) \/ exists m e, y = Fin neg m e /\ inject_Z b * 2 ^ k <= inject_Z m * 2 ^ e.
Proof.
  intros L M [m e _ (_ & H)|T]; [right|left; now exists neg]. exists m, e. split; [reflexivity|].
  destruct (H b k M) as [H1 _]. revert H1. apply Qabs_case; apply Qabs_case; intros; lra.
Qed.

(** * C83 *)

Section Theorems.
(** The platform, the names of the integer types, what strtof makes of tiny values, the type that
    std::size_t is, the sign of a NaN, hypotf, when resize throws, whether char is signed, whether
    exceptions are caught, and how deep commands may nest. *)
Variables (p : platform) (nm : naming) (uf : bool) (size_t : ctype) (nan_sign : bool).
Variable hypotf : fval -> fval -> fval.
Variable refuses : Z -> option bytes.
Variables sg catching : bool.
Variable d : nat.
Hypothesis Us : size_type size_t.
Hypothesis Hy : hypot_type hypotf.

Local Notation table := (table p nm uf size_t).
Local Notation acts := (acts p nm uf size_t nan_sign hypotf refuses catching).
Local Notation goes_wrong := (goes_wrong p nm uf size_t nan_sign hypotf refuses catching).
Local Notation C := (cfg_classes sg default_cfg).
Local Notation dialogue := (dialogue table acts C).
Local Notation disaster := (disaster table acts goes_wrong C).
Local Notation stuck := (stuck table acts C).
Local Notation session := (PropertiesExample.run p nm uf size_t nan_sign hypotf refuses sg catching d).
Local Notation good := (proper_scene p size_t).
Local Notation I := (is_implemented p nm uf size_t nan_sign hypotf refuses sg catching d Us Hy).

Definition reply (r : result) : list bytes * option bytes * bytes := (r_errors r, r_return r, r_output r).

Lemma begun : exists s, start sg = Done s /\
  serves sg commands good (fun sc => World (width sc) (height sc) (data sc) None) first_scene s.
Proof. exact (started _ _ sg catching d _ _ _ _ _ _ I first_scene (first_good p size_t Us)). Qed.

Theorem C83_session_iff : forall lines rs w h l, Forall no_nul lines ->
  ((exists sc, dialogue first_scene lines sc rs /\ width sc = w /\ height sc = h /\ data sc = l) <->
   exists s s' xs, start sg = Done s /\ session s lines = Done (s', xs) /\
     map reply xs = rs /\ s_world s' = World w h l None).
Proof.
  intros lines rs w h l N. destruct begun as (s & E & R).
  destruct (session_iff _ _ sg catching d _ _ _ _ _ _ I first_scene s lines (World w h l None) rs R N) as [A B]. split.
  - intros (sc & D & <- & <- & <-). destruct A as (s' & xs & H); [now exists sc|]. now exists s, s', xs.
  - intros (s0 & s' & xs & E0 & H). rewrite E in E0. injection E0 as <-. destruct B as (sc & D & X); [now exists s', xs|].
    injection X as <- <- <-. now exists sc.
Qed.

Theorem C83_disaster : forall lines s f, Forall no_nul lines -> start sg = Done s ->
  (disaster first_scene lines f -> session s lines = Fault f) /\
  (session s lines = Fault f -> disaster first_scene lines f \/ stuck first_scene lines).
Proof.
  intros lines s f N E. destruct begun as (s0 & E0 & R). rewrite E in E0. injection E0 as <-.
  exact (fault_iff _ _ sg catching d _ _ _ _ _ _ I first_scene s lines f R N).
Qed.

Theorem C83_described : forall lines, Forall no_nul lines ->
  ((exists sc rs, dialogue first_scene lines sc rs) \/ (exists f, disaster first_scene lines f) \/ stuck first_scene lines) /\
  (forall sc rs sc' rs', dialogue first_scene lines sc rs -> dialogue first_scene lines sc' rs' -> rs = rs' /\ sc = sc') /\
  (forall f f', disaster first_scene lines f -> disaster first_scene lines f' -> f = f') /\
  (forall sc rs f, dialogue first_scene lines sc rs -> ~ disaster first_scene lines f).
Proof.
  intros lines N. destruct begun as (s & E & R). split; [exact (total _ _ sg catching d _ _ _ _ _ _ I lines first_scene s R N)|].
  destruct (not_both _ _ sg catching d _ _ _ _ _ _ I first_scene s lines R N) as (A & B & D).
  split; [|now split]. intros sc rs sc' rs' H H'. destruct (A _ _ _ _ H H') as [-> X]. split; [reflexivity|].
  injection X as Xw Xh Xd. destruct sc, sc'. cbn in *. congruence.
Qed.

(** What is set is what is read. *)
Theorem C83_setter_answers : forall sc name v nd sc' ret out nd',
  acts sc name [v] nd sc' [] ret out -> acts sc' name [] nd' sc' [] ret out.
Proof. exact (setter_getter p nm uf size_t nan_sign hypotf refuses catching). Qed.

Lemma answers_unset sc line sc' es ret out : answers_text table acts C sc line sc' es ret out ->
  (forall name pos nd, LexerSpec.command C line (inl (SInput name pos nd)) -> ~ sets name pos) -> sc' = sc.
Proof.
  intros A N. inversion A as [e H|name pos nd sc1 es1 ret1 out1 H D]; subst; [reflexivity|].
  specialize (N _ _ _ H). inversion D; subst; try reflexivity. eapply acts_unset; eauto.
Qed.

(** Texts without a setter, the read-only properties included, change nothing and do no harm. *)
Theorem C83_readers : forall lines s, Forall no_nul lines -> start sg = Done s ->
  (forall line name pos nd, In line lines -> LexerSpec.command C line (inl (SInput name pos nd)) -> ~ sets name pos) ->
  (forall line, In line lines -> ~ ill_command C line) ->
  exists s' xs, session s lines = Done (s', xs) /\ length xs = length lines /\ s_world s' = initial.
Proof.
  intros lines s N E Ns Ni. destruct begun as (s0 & E0 & R). rewrite E in E0. injection E0 as <-.
  destruct (total _ _ sg catching d _ _ _ _ _ _ I lines first_scene s R N) as [(sc & rs & D)|[(f & D)|St]].
  - destruct (session_dialogue _ _ sg catching d _ _ _ _ _ _ I _ _ _ _ D s N R) as (s' & xs & H & (_ & _ & Hw & _) & M).
    exists s', xs. split; [exact H|].
    assert (X : length rs = length lines /\ sc = first_scene).
    { clear - D Ns. induction D as [sc|sc line lines sc1 es ret out sc2 rs A D IH]; [now split|].
      destruct IH as [L ->]; [intros; eapply Ns; [right|]; eassumption|]. cbn. split; [now rewrite L|].
      eapply answers_unset; [exact A|]. intros. eapply Ns; [now left|eassumption]. }
    destruct X as [L ->]. split; [|exact Hw]. rewrite <- L, <- M. now rewrite map_length.
  - exfalso. clear - D Ns. induction D as [sc line lines f (name & pos & nd & H & G)|sc line lines sc1 es ret out f A D IH].
    + apply (Ns line name pos nd); [now left|exact H|]. eapply wrong_sets; exact G.
    + apply IH. intros. eapply Ns; [right|]; eassumption.
  - exfalso. destruct St as (a & line & b & sc & rs & -> & _ & Il). apply (Ni line); [|exact Il].
    apply in_or_app. right. now left.
Qed.

(** The width after setting the aspect, unless the height is 2^24 or more: less than a pixel off, but
    for the rounding of the product. *)
Theorem C83_accuracy : forall sc v nd sc' ret out x q,
  (0 <= height sc < 2 ^ 24)%Z -> acts sc (lit "window.aspect") [v] nd sc' [] ret out ->
  denotes_value (float_kind uf) v x -> stands_for x q -> 0 <= q ->
  height sc' = height sc /\ data sc' = data sc /\
  Qabs (inject_Z (width sc') - q * inject_Z (height sc)) < 1 + q * inject_Z (height sc) * 2 ^ (-24).
Proof.
  intros sc v nd sc' ret out x q Hh A V Sx Pq.
  inversion A as [| |nd1 v1 x1 y n r V1 Wn Wh X| | | | |nm1 nd1 v1 x1 Nn V1| | | |]; subst.
  split; [reflexivity|]. split; [reflexivity|].
  assert (x1 = x).
  { destruct V as (w & Ev & V). destruct V1 as (w1 & Ev1 & V1). subst v. injection Ev1 as <-.
    exact (C58_result_unique binary32 uf w _ _ binary32_sane V1 V). }
  subst x1. destruct Wn as (h & Ah & P). destruct (as_float_small _ _ Hh Ah) as (mh & eh & -> & Eh). cbn [width height].
  assert (Vx := float_value uf v x V).
  destruct x as [neg m e|s|s]; [|inversion Sx|inversion Sx].
  assert (Hm := value_nonneg neg m e Vx). assert (Dm := dyadic_nonneg m e Hm).
  assert (Hq : q == signed neg (dyadic m e)) by (inversion Sx; subst; assumption).
  assert (Hh0 : 0 <= inject_Z (height sc)) by (change 0 with (inject_Z 0); apply inject_le; lia).
  inversion P as [a b y' Ma Mb Nf|Hi|Hi|s Hi]; subst; try (exfalso; kinds; fail).
  kinds. cbn [negative] in Nf. rewrite xorb_false_r in Nf.
  destruct Wh as (Rg & qy & Sy & A1 & A2). assert (Gn : (0 <= n)%Z) by now apply (size_range p size_t Us) in Rg.
  assert (Hn0 : 0 <= inject_Z n) by (change 0 with (inject_Z 0); apply inject_le; lia).
  destruct y as [ny my ey|s|s]; [|inversion Sy|inversion Sy].
  assert (ny = neg) by (now inversion Nf). subst ny.
  assert (Pr : 0 <= inject_Z m * 2 ^ e * (inject_Z mh * 2 ^ eh)) by (rewrite <- Eh; now apply Qmult_le_0_compat).
  assert (Er := nearest_error neg _ my ey Pr Nf).
  assert (Hqy : qy == signed neg (inject_Z my * 2 ^ ey)) by (inversion Sy; subst; assumption).
  assert (Vy : 0 <= inject_Z my * 2 ^ ey).
  { inversion Nf as [m' e' _ [(Mi & _) _]|]; subst. exact (dyadic_nonneg my ey (proj1 Mi)). }
  unfold dyadic in Hq, Dm. rewrite <- Eh in Er. set (hh := inject_Z (height sc)) in *.
  set (a := inject_Z m * 2 ^ e) in *. set (b := inject_Z my * 2 ^ ey) in *. set (nn := inject_Z n) in *.
  assert (Hqa : q == a) by (destruct neg; cbn [signed] in Hq; lra).
  assert (Q0 : 0 <= q * hh) by now apply Qmult_le_0_compat.
  assert (S24 : 0 <= q * hh * 2 ^ (-24)) by (apply Qmult_le_0_compat; [exact Q0|now vm_compute]).
  rewrite (Qmult_comm _ (2 ^ (-24))) in S24 |- *. rewrite <- Hqa in Er. rewrite (Qmult_comm (q * hh) (2 ^ (-24))) in Er.
  set (eps := 2 ^ (-24) * (q * hh)) in *.
  assert (Small : 2 ^ (-126) < 1) by now vm_compute. set (t := 2 ^ (-126)) in *.
  rewrite Hqy in A1, A2. rewrite (Qabs_pos nn) in A2 by exact Hn0. destruct neg; cbn [signed] in *.
  - (* minus zero *)
    assert (Az : a == 0) by lra. assert (Z0 : q * hh == 0) by (rewrite Hqa, Az; ring).
    assert (B0 : b == 0).
    { destruct Er as [Er|[Er1 Er2]].
      - unfold eps in Er. rewrite Z0 in Er. revert Er. apply Qabs_case; intros; lra.
      - inversion Nf as [m' e' _ Nm|]; subst. fold a in Nm. 
        assert (Za : a * (inject_Z mh * 2 ^ eh) == 0) by (rewrite Az; ring).
        destruct (nearest_zero_iff _ _ _ Za Nm) as [-> ->]. unfold b. change (inject_Z 0) with 0. ring. }
    rewrite B0 in A2. change (Qabs (- 0)) with 0 in A2. assert (Nz : nn == 0) by lra.
    rewrite Z0, Nz. unfold eps. rewrite Z0. change (Qabs (0 - 0)) with 0. lra.
  - rewrite (Qabs_pos b) in A2 by exact Vy.
    assert (A1' : b - nn < 1) by (rewrite Qabs_pos in A1 by lra; exact A1).
    destruct Er as [Er|[Er1 Er2]].
    + revert Er. apply Qabs_case; intros G1 G2; apply Qabs_case; intros; lra.
    + apply Qabs_case; intros; lra.
Qed.

(** Aspects from 0 to a million are harmless as long as the diagonal is left alone. *)
Theorem C83_safe : forall lines s, Forall no_nul lines -> start sg = Done s ->
  (forall line, In line lines -> ~ ill_command C line) ->
  (forall line v nd, In line lines -> ~ LexerSpec.command C line (inl (SInput (lit "window.diagonal") [v] nd))) ->
  (forall line v nd, In line lines -> LexerSpec.command C line (inl (SInput (lit "data.size") [v] nd)) -> catching = true) ->
  (forall line v nd x, In line lines -> LexerSpec.command C line (inl (SInput (lit "window.aspect") [v] nd)) ->
     denotes_value (float_kind uf) v x -> exists q, stands_for x q /\ 0 <= q <= 1000000) ->
  exists s' xs, session s lines = Done (s', xs) /\ length xs = length lines.
Proof.
  intros lines s N E Ni Nd Ns Na. destruct begun as (s0 & E0 & R). rewrite E in E0. injection E0 as <-.
  destruct (total _ _ sg catching d _ _ _ _ _ _ I lines first_scene s R N) as [(sc & rs & D)|[(f & D)|St]].
  - destruct (session_dialogue _ _ sg catching d _ _ _ _ _ _ I _ _ _ _ D s N R) as (s' & xs & H & _ & M).
    exists s', xs. split; [exact H|].
    assert (L : length rs = length lines) by (clear - D; induction D; cbn; congruence).
    rewrite <- L, <- M. now rewrite map_length.
  - exfalso. assert (H : height first_scene = 1080%Z) by reflexivity. revert H.
    clear R E. induction D as [sc line lines f (name & pos & nd & H & G)|sc line lines sc1 es ret out f A D IH]; intros Hh.
    + destruct G as [nd v x y V Wn Nw|nd v x y z V Wn Nw|nd v n what V Rf Ec].
      * destruct (Na line v nd x (or_introl eq_refl) H V) as (q & Sx & Pq).
        destruct Wn as (h & Ah & P). rewrite Hh in Ah.
        destruct (as_float_small 1080 h ltac:(lia) Ah) as (mh & eh & -> & Eh).
        assert (Vx := float_value uf v x V). destruct x as [neg m e|t|t]; [|inversion Sx|inversion Sx].
        assert (Hm := value_nonneg neg m e Vx). assert (Dm := dyadic_nonneg m e Hm).
        assert (Hq : q == signed neg (dyadic m e)) by (inversion Sx; subst; assumption).
        assert (La : dyadic m e <= 1000000) by (destruct neg; cbn [signed] in Hq; lra).
        inversion P as [a b y' Ma Mb Nf|Hi|Hi|t Hi]; subst; try (exfalso; kinds; fail).
        kinds. cbn [negative] in Nf. rewrite xorb_false_r in Nf.
        assert (B31 : magnitude_in binary32 (2 ^ 23) 8) by (repeat split; cbn; lia).
        assert (Lb : inject_Z m * 2 ^ e * (inject_Z mh * 2 ^ eh) <= inject_Z (2 ^ 23) * 2 ^ 8).
        { rewrite <- Eh. change (inject_Z m * 2 ^ e) with (dyadic m e). change (inject_Z 1080) with 1080.
          change (inject_Z (2 ^ 23) * 2 ^ 8) with 2147483648. lra. }
        destruct (nearest_below_finite neg _ y _ _ Lb B31 Nf) as (my & ey & -> & My & Ly).
        assert (Vy : value_in binary32 (Fin neg my ey)) by exact My.
        assert (Z : to_size p size_t (Fin neg my ey) <> None).
        { cbn [to_size]. assert (Hy0 := value_nonneg neg my ey Vy). assert (Dy := dyadic_nonneg my ey Hy0).
          assert (F := proj1 (floor_whole (dyadic my ey) _ Dy) eq_refl). destruct F as (K & _ & K2).
          assert (K3 : (Qround.Qfloor (dyadic my ey) <= 2147483648)%Z).
          { rewrite Zle_Qle. change (inject_Z 2147483648) with (inject_Z (2 ^ 23) * 2 ^ 8). unfold dyadic in *. lra. }
          assert (B := size_max_bounds p size_t Us).
          destruct neg.
          - assert (Zm : dyadic m e == 0) by (cbn [signed] in Hq; lra).
            assert (Za : inject_Z m * 2 ^ e * (inject_Z mh * 2 ^ eh) == 0) by (change (inject_Z m * 2 ^ e) with (dyadic m e); rewrite Zm; ring).
            inversion Nf as [m' e' _ Nm|]; subst. destruct (nearest_zero_iff _ _ _ Za Nm) as [-> ->].
            change (Qround.Qfloor (dyadic 0 (-149))) with 0%Z. cbn [Z.opp]. cbn [Z.leb Z.compare].
            destruct (Z.leb_spec 0 (size_max p size_t)); [discriminate|lia].
          - destruct (Z.leb_spec 0 (Qround.Qfloor (dyadic my ey))); [|lia].
            destruct (Z.leb_spec (Qround.Qfloor (dyadic my ey)) (size_max p size_t)); [discriminate|lia]. }
        apply Z. now apply (to_size_none p size_t Us).
      * exact (Nd line v nd (or_introl eq_refl) H).
      * rewrite (Ns line v nd (or_introl eq_refl) H) in Ec. discriminate Ec.
    + inversion N as [|? ? N1 N2]; subst. apply IH; try assumption.
      * intros l Il. apply Ni. now right.
      * intros l v nd Il. apply Nd. now right.
      * intros l v nd Il. apply Ns. now right.
      * intros l v nd x Il. apply Na. now right.
      * rewrite <- Hh. inversion A as [e0 H|name pos nd sc2 es1 ret1 out1 H Do]; subst; [reflexivity|].
        inversion Do; subst; try reflexivity.
        match goal with X : PropertiesExampleSpec.acts _ _ _ _ _ _ _ _ _ _ _ _ _ _ _ _ |- _ => apply acts_height in X; [exact X|] end.
        intros [-> L]. destruct pos as [|v [|? ?]]; try discriminate L. exact (Nd line v nd (or_introl eq_refl) H).
  - exfalso. destruct St as (a & line & b & sc & rs & -> & _ & Il). apply (Ni line); [|exact Il].
    apply in_or_app. right. now left.
Qed.

(** ** Undefined behaviour *)

Lemma parsed line name pos nd : parse_input sg default_cfg line = Done (Value (Input name pos nd)) ->
  LexerSpec.command C line (inl (SInput name pos nd)).
Proof. intros H. now apply (C07_value_iff_wellformed sg default_cfg line name pos nd). Qed.

Lemma nan_no_whole t : no_whole_part p size_t (NaN t).
Proof. intros n (_ & q & S & _). inversion S. Qed.

(** A negative aspect. *)
Theorem C83_negative_refuted : disaster first_scene [lit "window.aspect -1"] Overflow.
Proof.
  apply disaster_here. exists (lit "window.aspect"), [[lit "-1"]], [].
  split; [apply parsed; destruct sg; now vm_compute|].
  assert (V : denotes_value (float_kind uf) [lit "-1"] (Fin true 8388608 (-23))).
  { exists (lit "-1"). split; [reflexivity|]. apply C58_exact; [exact binary32_sane|]. destruct uf; now vm_compute. }
  apply (wrong_aspect _ _ _ _ _ _ _ _ _ [] [lit "-1"] (Fin true 8388608 (-23)) (width_product nan_sign first_scene (Fin true 8388608 (-23)))); [exact V| |].
  - apply (wanted_width_iff p size_t nan_sign Us); [exact (first_good p size_t Us)|exact (float_value uf _ _ V)|reflexivity].
  - apply (to_size_none p size_t Us).
    + apply fmul_in; [exact (float_value uf _ _ V)|]. apply of_size_in. now cbn.
    + reflexivity.
Qed.

Hypothesis Hs : hypot_sane hypotf.

Lemma zero_size : of_size 0 = Fin false 0 (-149).
Proof. reflexivity. Qed.

(** After the window has collapsed, no diagonal can be set. *)
Lemma collapsed l v nd x : denotes_value (float_kind uf) v x ->
  goes_wrong (Scene 0 0 l) (lit "window.diagonal") [v] nd Overflow.
Proof.
  intros V. assert (G : good (Scene 0 0 l)).
  { split; apply (size_range p size_t Us); assert (B := size_max_bounds p size_t Us); cbn; lia. }
  assert (Vx := float_value uf v x V).
  assert (Wn := proj2 (wanted_sizes_iff p size_t nan_sign hypotf Us Hy (Scene 0 0 l) x _ _ G Vx) (conj eq_refl eq_refl)).
  apply (wrong_diagonal _ _ _ _ _ _ _ _ _ nd v x _ _ V Wn). left. unfold the_scale, diagonal. cbn [width height w_width w_height]. rewrite zero_size.
  destruct Hs as (_ & Z & _). destruct (Z (Fin false 0 (-149)) (Fin false 0 (-149))) as ((t & e & E) & _); [now exists false, (-149)%Z..|].
  rewrite E. destruct x as [neg m e'|s'|s']; cbn [fdiv]; [|apply nan_no_whole..].
  cbn [Z.eqb]. destruct (m =? 0)%Z; apply nan_no_whole.
Qed.

Lemma collapses ret : diagonal_text hypotf (Scene 0 0 [3; 1; 4]%Z) ret ->
  acts first_scene (lit "window.diagonal") [[lit "0"]] [] (Scene 0 0 [3; 1; 4]%Z) [] (Some ret) [].
Proof.
  intros X. assert (G := first_good p size_t Us).
  assert (V : denotes_value (float_kind uf) [lit "0"] (Fin false 0 (-149))).
  { exists (lit "0"). split; [reflexivity|]. apply C58_exact; [exact binary32_sane|]. destruct uf; now vm_compute. }
  assert (Vx := float_value uf _ _ V).
  assert (Wn := proj2 (wanted_sizes_iff p size_t nan_sign hypotf Us Hy first_scene (Fin false 0 (-149)) _ _ G Vx) (conj eq_refl eq_refl)).
  assert (Sc : exists t, the_scale nan_sign hypotf first_scene (Fin false 0 (-149)) = Fin t 0 (-149)).
  { unfold the_scale, diagonal. cbn [width height first_scene w_width w_height].
    destruct Hs as (_ & _ & P).
    assert (M1 : of_size 1920 = Fin false 15728640 (-13)) by now vm_compute.
    assert (M2 : of_size 1080 = Fin false 8847360 (-13)) by now vm_compute. rewrite M1, M2.
    assert (V1 : value_in binary32 (Fin false 15728640 (-13))) by (repeat split; cbn; lia).
    assert (V2 : value_in binary32 (Fin false 8847360 (-13))) by (repeat split; cbn; lia).
    destruct (P _ _ _ _ V1 V2 (mag_fin false 15728640 (-13)) (mag_fin false 8847360 (-13))) as [Nz Nn]; [now apply not_zero..|].
    assert (Vh : value_in binary32 (hypotf (Fin false 15728640 (-13)) (Fin false 8847360 (-13)))) by now apply Hy.
    destruct (hypotf (Fin false 15728640 (-13)) (Fin false 8847360 (-13))) as [t m e|t|t].
    - cbn [fdiv]. destruct (Z.eqb_spec m 0) as [->|Nm]; [elim Nz; now exists t, e|]. exists t. unfold rounded.
      assert (Q0 : dyadic 0 (-149) / dyadic m e == 0) by (unfold dyadic; change (inject_Z 0) with 0; unfold Qdiv; ring).
      destruct (Qle_bool (dyadic 0 (-149) / dyadic m e) 0) eqn:B; [now destruct t|].
      exfalso. assert (L : dyadic 0 (-149) / dyadic m e <= 0) by lra. apply Qle_bool_iff in L. congruence.
    - exists t. now destruct t.
    - elim Nn. now exists t. }
  destruct Sc as (t & Sc). rewrite Sc in Wn.
  assert (Py : forall n, (0 <= n)%Z -> in_range p size_t n -> whole_part p size_t (fmul nan_sign (of_size n) (Fin t 0 (-149))) 0).
  { intros n Hn Rn. assert (Vn := of_size_in n Hn). apply (to_size_whole p size_t Us).
    - apply fmul_in; [exact Vn|]. repeat split; cbn; lia.
    - assert (Fn : exists m e, of_size n = Fin false m e).
      { assert (A : nearest_float false (inject_Z n) (of_size n)) by now apply of_size_nearest.
        apply (size_range p size_t Us) in Rn. assert (B := size_max_bounds p size_t Us).
        assert (M : magnitude_in binary32 (2 ^ 23) 41) by (repeat split; cbn; lia).
        destruct (nearest_below_finite false (inject_Z n) (of_size n) (2 ^ 23) 41) as (m & e & E & _); [|exact M|exact A|now exists m, e].
        change (inject_Z (2 ^ 23) * 2 ^ 41) with (inject_Z (2 ^ 64)). apply inject_le. lia. }
      destruct Fn as (m & e & ->). cbn [fmul]. unfold rounded.
      assert (Q0 : dyadic m e * dyadic 0 (-149) == 0) by (unfold dyadic; change (inject_Z 0) with 0; ring).
      destruct (Qle_bool (dyadic m e * dyadic 0 (-149)) 0) eqn:B.
      + cbn [to_size]. change (Qround.Qfloor (dyadic 0 (emin binary32))) with 0%Z.
        replace (if xorb false t then (- 0)%Z else 0%Z) with 0%Z by now destruct (xorb false t).
        assert (Bd := size_max_bounds p size_t Us). cbn [Z.leb Z.compare andb].
        destruct (Z.leb_spec 0 (size_max p size_t)); [reflexivity|lia].
      + exfalso. assert (L : dyadic m e * dyadic 0 (-149) <= 0) by lra. apply Qle_bool_iff in L. congruence. }
  exact (acts_set_diagonal p nm uf size_t nan_sign hypotf refuses catching first_scene [] [lit "0"] _ _ _ 0 0 ret V Wn
           (Py 1920%Z ltac:(lia) (proj1 G)) (Py 1080%Z ltac:(lia) (proj2 G)) X).
Qed.

(** The diagonal 0 is accepted, and makes every later diagonal undefined. *)
Theorem C83_collapse : forall line v nd x,
  LexerSpec.command C line (inl (SInput (lit "window.diagonal") [v] nd)) -> denotes_value (float_kind uf) v x ->
  (exists ret, dialogue first_scene [lit "window.diagonal 0"] (Scene 0 0 [3; 1; 4]%Z) [([], ret, [])]) /\
  disaster first_scene [lit "window.diagonal 0"; line] Overflow.
Proof.
  intros line v nd x H V.
  assert (A : exists ret, answers_text table acts C first_scene (lit "window.diagonal 0") (Scene 0 0 [3; 1; 4]%Z) [] (Some ret) []).
  { exists (toStringF (hypotf (Fin false 0 (-149)) (Fin false 0 (-149)))).
    eapply answers_command; [apply parsed; destruct sg; now vm_compute|]. apply does_acts. apply collapses.
    exists (hypotf (Fin false 0 (-149)) (Fin false 0 (-149))). split;
      [|apply C87_float_iff; [apply Hy; repeat split; cbn; lia|reflexivity]].
    exists (Fin false 0 (-149)), (Fin false 0 (-149)).
    assert (Z : as_float 0 (Fin false 0 (-149))) by (apply (of_size_nearest 0); [lia|reflexivity]). now repeat split. }
  destruct A as (ret & A). split.
  - exists (Some ret). econstructor; [exact A|constructor].
  - eapply disaster_later; [exact A|]. apply disaster_here. exists (lit "window.diagonal"), [v], nd. split; [exact H|].
    now apply (collapsed [3; 1; 4]%Z v nd x).
Qed.
End Theorems.

(** ** Examples *)

(** A hypotf: the square root of the sum of the squares, cut off after 60 binary digits and rounded. *)
Definition ex_hypot (x y : fval) : fval :=
  match x, y with
  | Inf _, _ => Inf false
  | _, Inf _ => Inf false
  | NaN s, _ => NaN s
  | _, NaN s => NaN s
  | Fin _ m e, Fin _ m' e' =>
      let k := Z.min e e' in
      let a := (m * 2 ^ (e - k))%Z in
      let b := (m' * 2 ^ (e' - k))%Z in
      rounded false (inject_Z (Z.sqrt ((a * a + b * b) * 2 ^ 120)) * 2 ^ (k - 60))
  end.

Lemma ex_hypot_sane : hypot_sane ex_hypot.
Proof.
  assert (S0 : forall m e, 0 <= inject_Z (Z.sqrt m) * 2 ^ e).
  { intros. apply Qmult_le_0_compat; [change 0 with (inject_Z 0); apply inject_le, Z.sqrt_nonneg|apply Qlt_le_weak, pow2_pos]. }
  split; [|split].
  - intros x y Vx Vy. destruct x as [s m e|s|s], y as [t m' e'|t|t]; cbn [ex_hypot]; try exact Logic.I.
    now apply rounded_in.
  - intros x y (s & e & ->) (t & e' & ->). cbn [ex_hypot]. rewrite !Z.mul_0_l. cbn [Z.add Z.mul Z.sqrt].
    unfold rounded. change (inject_Z 0) with 0.
    assert (L : 0 * 2 ^ (Z.min e e' - 60) <= 0) by (rewrite Qmult_0_l; apply Qle_refl). apply Qle_bool_iff in L. rewrite L.
    split; [now exists false, (emin binary32)|reflexivity].
  - intros x y q r Vx Vy (s & m & e & -> & _) (t & m' & e' & -> & _) Nx Ny. cbn [ex_hypot].
    set (k := Z.min e e'). set (a := (m * 2 ^ (e - k))%Z). set (b := (m' * 2 ^ (e' - k))%Z).
    assert (Hm := value_nonneg _ _ _ Vx). assert (Mp : (0 < m)%Z).
    { destruct (Z.eq_dec m 0) as [->|]; [elim Nx; now exists s, e|lia]. }
    assert (Ka : (0 <= e - k)%Z) by (unfold k; lia).
    assert (Lo : inject_Z m * 2 ^ e <= inject_Z (Z.sqrt ((a * a + b * b) * 2 ^ 120)) * 2 ^ (k - 60)).
    { assert (Sq : (a * 2 ^ 60 <= Z.sqrt ((a * a + b * b) * 2 ^ 120))%Z).
      { apply Z.sqrt_le_square; [nia| |]; unfold a; [|].
        - assert (0 <= 2 ^ (e - k))%Z by (apply Z.pow_nonneg; lia). nia.
        - change (2 ^ 120)%Z with (2 ^ 60 * 2 ^ 60)%Z. fold a. nia. }
      apply Qle_trans with (inject_Z (a * 2 ^ 60) * 2 ^ (k - 60)).
      - unfold a. rewrite !inject_Z_mult, !pow2_Z by lia. rewrite <- !Qmult_assoc, <- !pow2_add.
        replace (e - k + (60 + (k - 60)))%Z with e by lia. apply Qle_refl.
      - apply Qmult_le_compat_r; [now apply inject_le|apply Qlt_le_weak, pow2_pos]. }
    assert (N := proj1 (rounded_nearest false _ _ (S0 ((a * a + b * b) * 2 ^ 120)%Z (k - 60)%Z)) eq_refl).
    destruct (nearest_above false _ _ m e Lo Vx N) as [(u & ->)|(m1 & e1 & -> & L1)].
    + split; [intros (? & ? & X); discriminate X|intros (? & X); discriminate X].
    + split; [|intros (? & X); discriminate X]. intros (? & ? & X). injection X as _ -> _.
      change (inject_Z 0) with 0 in L1. rewrite Qmult_0_l in L1. assert (D := dyadic_pos m e Mp). unfold dyadic in D. lra.
Qed.

(** A vector of int can have 2^61 - 1 elements. *)
Definition ex_refuses (n : Z) : option bytes :=
  if (2 ^ 61 - 1 <? n)%Z then Some (lit "vector::_M_default_append") else None.

Definition ex_lines (l : list string) : list bytes := map lit l.
Definition ex_session (l : list string) : outcome (list (list bytes * option bytes * bytes) * world) :=
  s <- start true ;;
  r <- PropertiesExample.run ex_platform ex_naming false CULong true ex_hypot ex_refuses true true 3 s (ex_lines l) ;;
  Done (map reply (snd r), s_world (fst r)).


(** The commands of PropertiesExample.cpp:62-78. *)
Example C83_ex_run : ex_session
  ["window.print_size"; "window.aspect"; "window.aspect 1.3"; "window.print_size"; "window.diagonal";
   "window.diagonal 1500"; "window.print_size"; "data"; "data.size"; "data.size 7"; "data"; "window.readonly_aspect";
   "window.readonly_aspect 1.5"; "window.readonly_diagonal"; "window.readonly_diagonal 1200"]%string =
  Done ([([], None, lit "1920x1080" ++ [nl]);
         ([], Some (lit "1.77778"), []);
         ([], Some (lit "1.3"), []);
         ([], None, lit "1404x1080" ++ [nl]);
         ([], Some (lit "1771.33"), []);
         ([], Some (lit "1498.91"), []);
         ([], None, lit "1188x914" ++ [nl]);
         ([], None, lit "{ 3 1 4 }");
         ([], Some (lit "3"), []);
         ([], Some (lit "7"), []);
         ([], None, lit "{ 3 1 4 0 0 0 0 }");
         ([], Some (lit "1.29978"), []);
         ([lit "This property is read-only"], None, []);
         ([], Some (lit "1498.91"), []);
         ([lit "This property is read-only"], None, [])],
        World 1188 914 [3; 1; 4; 0; 0; 0; 0]%Z None).
Proof. vm_compute. reflexivity. Qed.

(** The diagonal 1 leaves no pixel, and an aspect that is no number. *)
Example C83_ex_errors : ex_session
  ["window.diagonal 1"; "window.aspect"; "window.diagonal"; "data.size 2"; "data"; "data.size 18446744073709551615";
   "window.aspect x"; "data 1"; "window.readonly_aspect (1 2)"]%string =
  Done ([([], Some (lit "0"), []);
         ([], Some (lit "-nan"), []);
         ([], Some (lit "0"), []);
         ([], Some (lit "2"), []);
         ([], None, lit "{ 3 1 }");
         ([lit "Exception caught during execution: vector::_M_default_append"], None, []);
         ([lit "Unable to convert 'x' to type 'float'"], None, []);
         ([lit "Wrong number of arguments to 'data': expected 0, got 1"], None, []);
         ([lit "Unable to convert '1 2' to type 'float': Expected 1 subvalues, got 2"], None, [])],
        World 0 0 [3; 1]%Z None).
Proof. vm_compute. reflexivity. Qed.

Example C83_ex_collapsed : ex_session ["window.diagonal 1"; "window.diagonal 1500"]%string = Fault Overflow.
Proof. vm_compute. reflexivity. Qed.

Example C83_ex_negative : ex_session ["window.aspect"; "window.aspect -1"]%string = Fault Overflow.
Proof. vm_compute. reflexivity. Qed.

(** An aspect that rounds to a million: the width is what was asked for, not what a float holds. *)
Example C83_ex_large : ex_session ["window.aspect 1000000"; "window.print_size"; "window.aspect 99999.99"; "window.print_size"]%string =
  Done ([([], Some (lit "1e+06"), []); ([], None, lit "1080000000x1080" ++ [nl]);
         ([], Some (lit "100000"), []); ([], None, lit "107999992x1080" ++ [nl])],
        World 107999992 1080 [3; 1; 4]%Z None).
Proof. vm_compute. reflexivity. Qed.

Lemma ex_text l name pos nd : parse_input true default_cfg l = Done (Value (Input name pos nd)) ->
  ~ ill_command (cfg_classes true default_cfg) l /\
  forall i, LexerSpec.command (cfg_classes true default_cfg) l (inl i) -> i = SInput name pos nd.
Proof.
  intros H. split; [intros X; apply parse_input_ill in X; rewrite H in X; discriminate X|].
  intros [n a k] Hi. apply parse_input_command in Hi. rewrite H in Hi. now injection Hi as -> -> ->.
Qed.

Definition ex_float (s : bytes) : option fval :=
  match from_value (float_ser false) [s] with Value x => Some x | Error _ => None end.

Lemma ex_float_value s x y : ex_float s = Some x -> denotes_value (float_kind false) [s] y -> y = x.
Proof.
  intros E D. apply (proj1 (float_implements false)) in D. unfold ex_float in E.
  rewrite D in E. now injection E.
Qed.

(** The hypotheses of C83_readers: a read-only property is not set. *)
Example C83_ex_readers : exists s s' xs, start true = Done s /\
  PropertiesExample.run ex_platform ex_naming false CULong true ex_hypot ex_refuses true true 3 s
    (map lit ["window.aspect"; "window.readonly_aspect 1.5"; "data.size 1 2"; "nothing 'here"]%string) = Done (s', xs) /\
  length xs = 4%nat /\ s_world s' = initial.
Proof.
  destruct (begun ex_platform ex_naming false CULong true ex_hypot ex_refuses true true 3 ltac:(now right; left) (proj1 ex_hypot_sane)) as (s & E & _).
  destruct (C83_readers ex_platform ex_naming false CULong true ex_hypot ex_refuses true true 3 ltac:(now right; left)
    (proj1 ex_hypot_sane)
    (map lit ["window.aspect"; "window.readonly_aspect 1.5"; "data.size 1 2"; "nothing 'here"]%string) s) as (s' & xs & R & L & W).
  - clear E. repeat constructor; vm_compute; intuition discriminate.
  - exact E.
  - clear E. cbn [map]. intros line name pos nd [<-|[<-|[<-|[<-|[]]]]] K [N A].
    all: try (match type of K with LexerSpec.command _ ?l _ =>
        let r := eval vm_compute in (parse_input true default_cfg l) in
        lazymatch r with Done (Value (Input ?a ?b ?c)) =>
          apply (proj2 (ex_text l a b c ltac:(now vm_compute))) in K; injection K as -> -> -> end end;
      (discriminate A || (repeat (destruct N as [N|N]; [discriminate N|]); contradiction))).
    apply parse_input_command in K. vm_compute in K. discriminate K.
  - clear E. cbn [map]. intros line [<-|[<-|[<-|[<-|[]]]]].
    1-3: match goal with |- ~ ill_command _ ?l =>
        let r := eval vm_compute in (parse_input true default_cfg l) in
        lazymatch r with Done (Value (Input ?a ?b ?c)) => exact (proj1 (ex_text l a b c ltac:(now vm_compute))) end end.
    intros X. apply parse_input_ill in X. vm_compute in X. discriminate X.
  - exists s, s', xs. split; [exact E|]. split; [exact R|]. split; [exact L|exact W].
Qed.

(** The hypotheses of C83_safe and C83_accuracy. *)
Example C83_ex_safe : exists s s' xs, start true = Done s /\
  PropertiesExample.run ex_platform ex_naming false CULong true ex_hypot ex_refuses true true 3 s
    (map lit ["window.aspect 1.3"; "data.size 7"; "window.readonly_diagonal 1"]%string) = Done (s', xs) /\
  length xs = 3%nat.
Proof.
  destruct (begun ex_platform ex_naming false CULong true ex_hypot ex_refuses true true 3 ltac:(now right; left) (proj1 ex_hypot_sane)) as (s & E & _).
  destruct (C83_safe ex_platform ex_naming false CULong true ex_hypot ex_refuses true true 3 ltac:(now right; left)
    (proj1 ex_hypot_sane)
    (map lit ["window.aspect 1.3"; "data.size 7"; "window.readonly_diagonal 1"]%string) s) as (s' & xs & R & L).
  - clear E. repeat constructor; vm_compute; intuition discriminate.
  - exact E.
  - clear E. cbn [map]. intros line [<-|[<-|[<-|[]]]];
    match goal with |- ~ ill_command _ ?l =>
        let r := eval vm_compute in (parse_input true default_cfg l) in
        lazymatch r with Done (Value (Input ?a ?b ?c)) => exact (proj1 (ex_text l a b c ltac:(now vm_compute))) end end.
  - clear E. cbn [map]. intros line v nd [<-|[<-|[<-|[]]]] K; apply parse_input_command in K; vm_compute in K; discriminate K.
  - reflexivity.
  - clear E. cbn [map]. intros line v nd x [<-|[<-|[<-|[]]]] K D; apply parse_input_command in K; vm_compute in K; try discriminate K.
    injection K as <- <-. exists (inject_Z 10905190 * 2 ^ (-23)). split; [|split; now vm_compute].
    rewrite (ex_float_value (lit "1.3") (Fin false 10905190 (-23)) x); [|now vm_compute|exact D].
    now constructor.
  - exists s, s', xs. split; [exact E|]. split; [exact R|exact L].
Qed.

Example C83_ex_accuracy :
  Qabs (inject_Z 1404 - inject_Z 10905190 * 2 ^ (-23) * inject_Z 1080) < 1 + inject_Z 10905190 * 2 ^ (-23) * inject_Z 1080 * 2 ^ (-24).
Proof. vm_compute. reflexivity. Qed.

(** The hypotheses of C83_collapse. *)
Example C83_ex_collapse : exists ret,
  dialogue (table ex_platform ex_naming false CULong) (acts ex_platform ex_naming false CULong true ex_hypot ex_refuses true)
    (cfg_classes true default_cfg) first_scene [lit "window.diagonal 0"] (Scene 0 0 [3; 1; 4]%Z) [([], ret, [])] /\
  disaster (table ex_platform ex_naming false CULong) (acts ex_platform ex_naming false CULong true ex_hypot ex_refuses true)
    (goes_wrong ex_platform ex_naming false CULong true ex_hypot ex_refuses true)
    (cfg_classes true default_cfg) first_scene [lit "window.diagonal 0"; lit "window.diagonal 1771.3"] Overflow.
Proof.
  destruct (from_value (float_ser false) [lit "1771.3"]) as [x|] eqn:F; [|now vm_compute in F].
  destruct (C83_collapse ex_platform ex_naming false CULong true ex_hypot ex_refuses true true ltac:(now right; left)
    (proj1 ex_hypot_sane) ex_hypot_sane (lit "window.diagonal 1771.3") [lit "1771.3"] [] x) as ((ret & D) & B).
  - apply parsed. now vm_compute.
  - now apply (proj1 (float_implements false)).
  - exists ret. split; [exact D|exact B].
Qed.

(** * Assumptions *)
Print Assumptions C83_session_iff.
Print Assumptions C83_disaster.
Print Assumptions C83_described.
Print Assumptions C83_setter_answers.
Print Assumptions C83_readers.
Print Assumptions C83_accuracy.
Print Assumptions C83_safe.
Print Assumptions C83_negative_refuted.
Print Assumptions C83_collapse.
