(** Lemmas for C78: the types, lookups and handlers of the example about named arguments. *)
From Coq Require Import Ascii String NArith ZArith Bool PeanoNat Lia List Sorting.Sorted.
Import ListNotations.
From Verif Require Import Util Base StringConv StringConvSpec StringConvProofs SerializerSpec Serializer
  SerializerProofs Lexer UMap Exec ExecSpec ExecProofs P_Exec2 P_Serializer FloatConv FloatConvSpec
  FloatSerializer P_FloatSerializer Enums EnumsSpec EnumsProofs EnumsRead P_Enums
  UserTypes UserTypesSpec FloatFixed UserTypesProofs P_Float PrintfProofs NamedExample NamedExampleSpec.

Local Notation length := List.length.

(** * Types *)

(** A serializer implements a type. *)
Definition implements (T : serializer) (K : kind (carrier T)) : Prop :=
  (forall v x, from_value T v = Value x <-> denotes_value K v x) /\
  (forall v e, value_no_nul v -> (from_value T v = Error e <-> complaint K v e)).

Lemma implements_intro (T : serializer) (K : kind (carrier T)) :
  (forall v x, from_value T v = Value x <-> denotes_value K v x) ->
  (forall h h', k_hint K h -> k_hint K h' -> h = h') ->
  (forall v e, value_no_nul v -> from_value T v = Error e ->
     length v = 1 /\ (exists h, k_hint K h /\ conversion_error (k_name K) v h e) \/
     length v <> 1 /\ exists d, mismatch_detail 1 (length v) d /\ conversion_error (k_name K) v (Some d) e) ->
  implements T K.
Proof.
  intros A U B. split; [exact A|]. intros v e N. split.
  - intros E. destruct (B v e N E) as [(L & h & Hh & C)|(L & d & D & C)].
    + destruct v as [|s [|? ?]]; try discriminate L. apply (complaint_word K [s] s h); auto.
      intros x W. assert (F : from_value T [s] = Value x) by (apply A; now exists s). congruence.
    + now apply (complaint_count K v d).
  - intros C. destruct (from_value T v) as [x|e'] eqn:E.
    { exfalso. apply A in E. destruct E as (s & -> & W).
      inversion C as [s' h e' E N' _ _|d e' L _ _]; [injection E as <-; now apply (N' x)|now apply L]. }
    f_equal. destruct (B v e' N E) as [(L & h & Hh & C')|(L & d & D & C')];
      inversion C as [s' h' e'' E' N' H' C''|d' e'' L' D' C'']; subst; try (now elim L'); try (now elim L).
    + rewrite (U h' h H' Hh) in C''. now apply (conversion_error_unique _ _ _ _ _ C').
    + rewrite (mismatch_detail_unique _ _ _ _ D D') in C'. now apply (conversion_error_unique _ _ _ _ _ C').
Qed.

Lemma no_hint_unique h h' : no_hint h -> no_hint h' -> h = h'.
Proof. unfold no_hint. congruence. Qed.

Section Types.
Variables (p : platform) (nm : naming) (uf : bool).

Lemma text_implements : implements string_serializer text_kind.
Proof.
  apply implements_intro.
  - intros v x. rewrite C16_string_accept_iff. unfold denotes_value. cbn. split.
    + intros ->. now exists x.
    + now intros (s & -> & ->).
  - exact no_hint_unique.
  - intros v e N E. right. assert (L : length v <> 1).
    { intros L. destruct v as [|s [|? ?]]; try discriminate L. discriminate E. }
    split; [exact L|]. destruct (C16_string_reject v L N) as (e' & d & E' & D & C).
    rewrite E in E'. injection E' as <-. now exists d.
Qed.

Lemma integer_implements t : implements (int_serializer p nm t) (integer_kind p nm t).
Proof.
  apply implements_intro.
  - intros v x. unfold denotes_value. cbn [k_word integer_kind]. split.
    + intros E. destruct v as [|s [|? ?]]; try discriminate E. exists s. split; [reflexivity|].
      apply (number_iff p nm (UInt t)). exact E.
    + intros (s & -> & W). apply (number_iff p nm (UInt t)) in W. exact W.
  - exact no_hint_unique.
  - intros v e N E.
    destruct (C19_scalar_error p nm true (int_serializer p nm t) v e (scalar_int _ _ _ t) N E) as [[L C]|R]; [left|now right].
    split; [exact L|]. now exists None.
Qed.

Lemma float_implements : implements (float_ser uf) (float_kind uf).
Proof.
  apply implements_intro.
  - intros v x. unfold float_ser. rewrite (C59_accept_iff binary64 uf TFloat v x) by (unfold long_double_format; auto).
    reflexivity.
  - exact no_hint_unique.
  - intros v e N E. unfold float_ser in E.
    apply (C59_error_iff binary64 uf TFloat v e) in E; [|unfold long_double_format; auto|exact N].
    destruct E as [(s & -> & _ & C)|R]; [left|now right]. split; [reflexivity|]. now exists None.
Qed.

Lemma bool_implements sg : implements (bool_serializer sg) bool_kind.
Proof.
  apply implements_intro.
  - intros v [|]; [apply C15_bool_true_iff|apply C15_bool_false_iff].
  - exact no_hint_unique.
  - intros v e N E. destruct (C19_scalar_error p nm sg (bool_serializer sg) v e (scalar_bool _ _ _) N E) as [[L C]|R]; [left|now right].
    split; [exact L|]. now exists None.
Qed.

Lemma listing_unique e l l' : listing e l -> listing e l' -> l = l'.
Proof.
  intros [S I] [S' I'].
  assert (K : forall l l' : list (Z * bytes), StronglySorted Z.lt (map fst l) -> StronglySorted Z.lt (map fst l') ->
    (forall x, In x l <-> In x l') -> l = l').
  { clear. induction l as [|a l IH]; intros [|b l'] S S' E.
    - reflexivity.
    - destruct (proj2 (E b) (or_introl eq_refl)).
    - destruct (proj1 (E a) (or_introl eq_refl)).
    - cbn [map] in S, S'. apply StronglySorted_inv in S, S'. destruct S as [S Fa], S' as [S' Fb].
      rewrite Forall_forall in Fa, Fb.
      assert (La : forall x, In x l -> (fst a < fst x)%Z) by (intros x I; apply Fa, in_map, I).
      assert (Lb : forall x, In x l' -> (fst b < fst x)%Z) by (intros x I; apply Fb, in_map, I).
      assert (a = b).
      { destruct (proj1 (E a) (or_introl eq_refl)) as [->|I]; [reflexivity|].
        destruct (proj2 (E b) (or_introl eq_refl)) as [->|J]; [reflexivity|].
        specialize (La b J). specialize (Lb a I). lia. }
      subst b. f_equal. apply IH; try assumption. intros x. split; intros I.
      + destruct (proj1 (E x) (or_intror I)) as [->|J]; [|exact J]. specialize (La x I). lia.
      + destruct (proj2 (E x) (or_intror I)) as [->|J]; [|exact J]. specialize (Lb x I). lia. }
  apply K; [exact S|exact S'|]. intros [v m]. now rewrite I, I'.
Qed.

Lemma enum_implements e : declarable p e -> e_fixed e = true ->
  implements (enum_serializer p nm e) (enum_kind p e).
Proof.
  intros De Fx.
  assert (Safe : forall v, exists r, fromString p nm e v = Done r).
  { intros v. destruct v as [|s [|? ?]]; [now eexists| |now eexists].
    destruct (fromString p nm e [s]) as [r|f] eqn:E; [now exists r|]. exfalso.
    assert (F : exists f, fromString p nm e [s] = Fault f) by now exists f.
    apply (C75_read_fault_iff p nm e s De) in F. destruct F as (x & _ & C). apply C. now left. }
  apply implements_intro.
  - intros v x. cbn [from_value enum_serializer]. unfold denotes_value. cbn [k_word enum_kind].
    destruct (Safe v) as (r & E). rewrite E. split.
    + intros ->. destruct v as [|s [|? ?]]; try discriminate E. exists s. split; [reflexivity|].
      now apply (C75_read_iff p nm e s x De) in E.
    + intros (s & -> & W).
      assert (E' : fromString p nm e [s] = Done (Value x)) by (apply C75_read_iff; [exact De|split; [exact W|now left]]).
      rewrite E in E'. now injection E' as ->.
  - intros h h' (l & n & L & J & ->) (l' & n' & L' & J' & ->).
    rewrite (listing_unique e l' l L' L) in J'. now rewrite (joined_det _ _ _ _ J' J).
  - intros v m N. cbn [from_value enum_serializer]. destruct (Safe v) as (r & E). rewrite E. intros ->.
    destruct (Nat.eq_dec (length v) 1) as [L|L]; [left|right]; (split; [exact L|]).
    + destruct v as [|s [|? ?]]; try discriminate L.
      apply (C75_read_error_iff p nm e s m De) in E; [|apply N; now left].
      destruct E as (_ & l & names & Hl & J & C). exists (Some (lit "Possible values are [" ++ names ++ lit "]")).
      split; [|exact C]. exists l, names. auto.
    + destruct (C75_read_count p nm e v De N L) as (m' & d & E' & D & C). rewrite E in E'. injection E' as <-.
      now exists d.
Qed.
End Types.

(** * Lookups *)

Definition named_no_nul (named : list (bytes * value)) : Prop :=
  forall k v, In (k, v) named -> value_no_nul v.

Lemma first_named_in key named v : first_named key named v -> In (key, v) named.
Proof. intros (a & b & -> & _). apply in_or_app. right. now left. Qed.

(** The call context after these errors and this output. *)
Definition ctx (inp : input) (es : list bytes) (out : bytes) : callctx :=
  CallCtx inp (Result no_input es None out).

Lemma ctx_report inp es out e : cc_reportError (ctx inp es out) e = ctx inp (es ++ [e]) out.
Proof. reflexivity. Qed.
Lemma ctx_line inp es out t :
  cc_output (cc_output (ctx inp es out) t) [newline] = ctx inp es (out ++ t ++ [newline]).
Proof. unfold ctx, cc_output. cbn. now rewrite <- app_assoc. Qed.

Section Run.
Context {W F : Type}.
Variable sg : bool.
Variable nested : nested_call W F.
Variable sid : nat.
Local Notation run := (run_prog sg nested sid).

Lemma lookup_run {R} (T : serializer) (K : kind (carrier T)) key required default r new
    (k : option (carrier T) -> prog W F R) s inp es out :
  implements T K -> named_no_nul (i_named inp) ->
  lookup K (i_named inp) key required default r new ->
  run s (ctx inp es out) (getOrReport_as T key required default k) = run s (ctx inp (es ++ new) out) (k r).
Proof.
  intros [A E] Nn L. destruct (C35_get_typed T (i_named inp) key) as (G & TM & MK).
  unfold getOrReport_as. cbn [run_prog]. change (cc_input (ctx inp es out)) with inp.
  destruct L as [v x req def Fn D|v e req def Fn D|def N|def e N M].
  - rewrite (proj2 (G x)) by (exists v; split; [exact Fn|now apply A]). now rewrite app_nil_r.
  - rewrite (proj2 (TM e)).
    + cbn [named_message]. rewrite andb_false_r. cbn [run_prog]. now rewrite ctx_report.
    + exists v. split; [exact Fn|]. apply E; [|exact D]. exact (Nn _ _ (first_named_in _ _ _ Fn)).
  - destruct (C35_get_first_match (i_named inp) key) as [_ M].
    rewrite (proj2 (MK (lit "Missing named argument '" ++ c_str key ++ lit "'"))).
    + cbn [named_message negb andb]. now rewrite app_nil_r.
    + split; [exact N|]. exists (c_str key). split; [apply before_nul_c_str|reflexivity].
  - rewrite (proj2 (MK e)) by (split; assumption). cbn [named_message negb andb run_prog]. now rewrite ctx_report.
Qed.

Lemma any_run {R} key (required : bool) (k : option value -> prog W F R) s inp es out :
  run s (ctx inp es out) (getOrReport key required k) =
  match find_named (i_named inp) key with
  | Some v => run s (ctx inp es out) (k (Some v))
  | None => if required then run s (ctx inp (es ++ [lit "Missing named argument '" ++ c_str key ++ lit "'"]) out) (k None)
            else run s (ctx inp es out) (k None)
  end.
Proof.
  unfold getOrReport. cbn [run_prog]. change (cc_input (ctx inp es out)) with inp. unfold named_get.
  destruct (find_named (i_named inp) key); [reflexivity|]. destruct required; reflexivity.
Qed.
End Run.

Lemma implements_cases T K v : implements T K -> value_no_nul v ->
  (exists x, denotes_value K v x) \/ (exists e, complaint K v e).
Proof.
  intros [A E] N. destruct (from_value T v) as [x|e] eqn:X.
  - left. exists x. now apply A.
  - right. exists e. now apply E.
Qed.

Lemma lookup_total T K named key required default : implements T K -> named_no_nul named ->
  exists r es, lookup K named key required default r es.
Proof.
  intros I N. destruct (C35_cases key named) as [(v & Fv)|No].
  - destruct (implements_cases T K v I (N _ _ (first_named_in _ _ _ Fv))) as [(x & D)|(e & D)].
    + exists (Some x), []. now apply (lookup_value K named key v).
    + exists None, [e]. now apply (lookup_bad K named key v).
  - destruct required.
    + eexists None, [_]. apply lookup_missing; [exact No|]. exists (c_str key). split; [apply before_nul_c_str|reflexivity].
    + exists default, []. now apply lookup_default.
Qed.

(** A lookup without errors of an argument with a default gives a value. *)
Lemma lookup_some {A} (K : kind A) named key required default r es :
  lookup K named key required default r es -> (es = [] -> required = true \/ default <> None -> r <> None) /\
  (es <> [] -> r = None).
Proof.
  intros [v x req def _ _|v e req def _ _|def _|def e _ _]; split; intros H; try easy.
  now intros [Q|Q].
Qed.

(** * Items *)

Lemma starts_with_iff s needle : starts_with s needle = true <-> exists b, s = needle ++ b.
Proof.
  revert s. induction needle as [|c needle IH]; intros s.
  - cbn. split; [intros _; now exists s|]. now destruct s.
  - destruct s as [|d s]; cbn.
    + split; [discriminate|]. now intros (b & ?).
    + rewrite andb_true_iff, IH. split.
      * intros (E & b & ->). apply Ascii.eqb_eq in E. subst d. now exists b.
      * intros (b & [= -> ->]). split; [apply Ascii.eqb_refl|]. now exists b.
Qed.

Lemma find_text_iff s needle : find_text s needle = true <-> occurs needle s.
Proof.
  unfold occurs. induction s as [|c s IH].
  - cbn [find_text]. rewrite orb_false_r, starts_with_iff. split.
    + intros (b & E). exists [], b. exact E.
    + intros (a & b & E). destruct a as [|? ?]; [now exists b|discriminate E].
  - cbn [find_text]. rewrite orb_true_iff, starts_with_iff, IH. split.
    + intros [(b & ->)|(a & b & ->)]; [now exists [], b|now exists (c :: a), b].
    + intros ([|d a] & b & E); [left; now exists b|right]. injection E as -> ->. now exists a, b.
Qed.

Lemma does_item_match_iff n a s t i : does_item_match n a s t i = true <-> wanted n a s t i.
Proof.
  unfold does_item_match, wanted. rewrite !andb_true_iff.
  assert (N : match n with None => true | Some x => find_text (it_name i) x end = true <->
    forall x, n = Some x -> occurs x (it_name i)).
  { destruct n as [x|]; [|easy]. rewrite find_text_iff. split; [now intros H y [= <-]|auto]. }
  assert (A : match a with None => true | Some x => (x <=? it_amount i)%Z end = true <->
    forall x, a = Some x -> (x <= it_amount i)%Z).
  { destruct a as [x|]; [|easy]. rewrite Z.leb_le. split; [now intros H y [= <-]|auto]. }
  assert (E : forall z (o : option Z), match o with None => true | Some x => (z =? x)%Z end = true <->
    forall x, o = Some x -> z = x).
  { intros z [x|]; [|easy]. rewrite Z.eqb_eq. split; [now intros H y [= <-]|auto]. }
  rewrite N, A, (E (it_source i) s), (E (it_type i) t). tauto.
Qed.

(** * The enumerations *)

Definition example_enum (e : enumeration) : Prop :=
  exists n, no_nul n /\ (e = Source n \/ e = Type_ n \/ e = SaveGameType n).

Lemma example_declarable p e : example_enum e -> declarable p e.
Proof.
  intros (n & N & H).
  assert (K : forall d, declarable p (Enumeration [] (UInt CInt) true d) -> declarable p (Enumeration n (UInt CInt) true d)).
  { intros d (_ & A & B). split; [exact N|]. split; [exact A|exact B]. }
  destruct H as [->|[->| ->]]; apply K, declarable_b_ok; destruct p as [[|] [|]]; vm_compute; reflexivity.
Qed.

Lemma example_fixed e : example_enum e -> e_fixed e = true.
Proof. intros (n & N & [->|[->| ->]]); reflexivity. Qed.
Lemma example_under e : example_enum e -> e_under e = UInt CInt.
Proof. intros (n & N & [->|[->| ->]]); reflexivity. Qed.

Lemma example_values e m v : example_enum e -> In (m, v) (e_decl e) -> (0 <= v <= 3)%Z.
Proof.
  intros (n & N & [->|[->| ->]]) I; cbn in I;
    repeat (destruct I as [I|I]; [injection I as _ <-; lia|]); destruct I.
Qed.

Lemma called_det e v t t' : called e v t -> called e v t' -> t = t'.
Proof.
  intros [A|[A ->]] [B|[B ->]].
  - exact (first_name_det e v t t' A B).
  - exfalso. destruct A as (x & y & E & _). apply (B t). rewrite E. apply in_or_app. right. now left.
  - exfalso. destruct B as (x & y & E & _). apply (A t'). rewrite E. apply in_or_app. right. now left.
  - reflexivity.
Qed.

Lemma example_name p e v : example_enum e -> in_range p CInt v ->
  enum_name p e v = Done (enum_name_text p e v) /\ called e v (enum_name_text p e v).
Proof.
  intros H R. assert (De := example_declarable p e H). assert (Eu := example_under e H).
  assert (U : under_range p (e_under e) v) by (rewrite Eu; exact R).
  assert (Co : values_compile p e false = true).
  { destruct H as (n & N & [->|[->| ->]]); destruct p as [[|] [|]]; reflexivity. }
  assert (Vis : forall w m, first_name e w m -> visible e w m).
  { intros w m Fn. split; [exact Fn|]. assert (B := example_values e m w H).
    specialize (B (first_name_In _ _ _ Fn)). lia. }
  assert (V0 : exists m, visible e 0 m).
  { destruct H as (n & N & [->|[->| ->]]); [exists (lit "None")|exists (lit "None")|exists (lit "Disk")];
      apply Vis; eexists []; eexists; (split; [reflexivity|intros m []]). }
  destruct V0 as (m0 & V0).
  destruct (C75_print_from_zero p e v m0 De Co V0) as (t & T).
  { intros w m (Fn & _). assert (B := example_values e m w H (first_name_In _ _ _ Fn)). lia. }
  { exact U. }
  assert (Q := T). unfold toString in Q. unfold enum_name_text. rewrite Q. split; [reflexivity|].
  apply (C75_print_iff p e v t De Co U) in T. destruct T as (_ & [V|(N & ->)]); [left; apply V|].
  right. split; [|reflexivity]. intros m I.
  assert (exists m', first_name e v m').
  { clear - I. unfold first_name. induction (e_decl e) as [|[m' w] l IH]; [destruct I|].
    destruct (Z.eq_dec w v) as [->|D]; [exists m', [], l; split; [reflexivity|intros ? []]|].
    destruct I as [[= _ E]|I]; [congruence|]. destruct (IH I) as (m1 & a & b & -> & N).
    exists m1, ((m', w) :: a), b. split; [reflexivity|]. intros x [[= _ E]|J]; [congruence|now apply (N x)]. }
  destruct H0 as (m' & Fn). apply N. exists m'. now apply Vis.
Qed.

(** * Running the handlers *)

Section Commands.
Variables (p : platform) (nm : naming) (uf : bool) (size_t : ctype).
Variables source_name type_name save_name : bytes.
Hypothesis Ns : no_nul source_name.
Hypothesis Nt : no_nul type_name.
Hypothesis Nv : no_nul save_name.
Hypothesis Us : is_unsigned size_t = true.

Local Notation code := (code p nm uf size_t source_name type_name save_name).
Local Notation item_text := (item_text source_name type_name).
Local Notation does := (does p nm uf size_t source_name type_name save_name).
Local Notation proper := (proper p size_t).

Lemma source_enum : example_enum (Source source_name).
Proof. exists source_name. auto. Qed.
Lemma type_enum : example_enum (Type_ type_name).
Proof. exists type_name. auto. Qed.
Lemma save_enum : example_enum (SaveGameType save_name).
Proof. exists save_name. auto. Qed.

Lemma size_implements : implements (size_ser p nm size_t) (size_kind p nm size_t).
Proof. apply integer_implements. Qed.
Lemma enum_example_implements e : example_enum e -> implements (enum_serializer p nm e) (enum_kind p e).
Proof. intros H. apply enum_implements; [now apply example_declarable|now apply example_fixed]. Qed.

Lemma tab5 a b c d e t :
  tabulated [a; b; c; d; e] t <-> t = a ++ tab :: b ++ tab :: c ++ tab :: d ++ tab :: e.
Proof.
  unfold tabulated. assert (J : joined [tab] [a; b; c; d; e] (a ++ [tab] ++ b ++ [tab] ++ c ++ [tab] ++ d ++ [tab] ++ e)).
  { repeat (apply joined_cons; [discriminate|]). apply joined_one. }
  split; [intros H; exact (joined_det _ _ _ _ H J)|intros ->; exact J].
Qed.

Lemma unsigned_nonneg x : in_range p size_t x -> (0 <= x)%Z.
Proof. intros R. unfold in_range in R. destruct size_t; try discriminate Us; cbn in R; lia. Qed.

Lemma item_text_iff i t : proper i -> (item_text i t <-> t = item_line p source_name type_name i).
Proof.
  intros (I & A & S & T). unfold item_line, NamedExampleSpec.item_text.
  destruct (example_name p _ _ source_enum S) as [_ CS]. destruct (example_name p _ _ type_enum T) as [_ CT].
  apply unsigned_nonneg in I, A. split.
  - intros (a & b & c & d & e & Ha & Hb & Hc & Hd & He & J). apply tab5 in J. subst t.
    rewrite (canonical_unique _ _ _ I Ha (dec_canonical _ I)), (before_nul_det _ _ Hb),
      (canonical_unique _ _ _ A Hc (dec_canonical _ A)), (called_det _ _ _ _ Hd CS), (called_det _ _ _ _ He CT).
    reflexivity.
  - intros ->. eexists _, _, _, _, _. split; [exact (dec_canonical _ I)|]. split; [apply before_nul_c_str|].
    split; [exact (dec_canonical _ A)|]. split; [exact CS|]. split; [exact CT|]. now apply tab5.
Qed.

Lemma item_lines_total W l : (forall i, W i \/ ~ W i) -> Forall proper l -> exists r, item_lines source_name type_name W l r.
Proof.
  intros D. induction 1 as [|i l P _ (r & IH)]; [exists []; constructor|].
  destruct (D i) as [H|H].
  - eexists. apply item_lines_yes; [exact H|now apply item_text_iff|exact IH].
  - exists r. now apply item_lines_no.
Qed.

Section Run.
Variable sg : bool.
Variable nested : nested_call (list item) fn.
Variable sid : nat.
Local Notation run := (run_prog sg nested sid).

Lemma list_items_run n a s t l r (k : prog (list item) fn unit) st inp es out :
  Forall proper l -> item_lines source_name type_name (wanted n a s t) l r ->
  run st (ctx inp es out) (list_items p source_name type_name (does_item_match n a s t) l k) =
  run st (ctx inp es (out ++ r)) k.
Proof.
  intros P H. revert out. induction H as [|i l t' r H T _ IH|i l r H _ IH]; intros out; cbn [list_items].
  - now rewrite app_nil_r.
  - inversion P as [|? ? Pi Pl]; subst. apply does_item_match_iff in H. rewrite H.
    apply (item_text_iff i t' Pi) in T. subst t'. cbn [run_prog]. rewrite ctx_line, (IH Pl).
    rewrite <- !app_assoc. reflexivity.
  - inversion P as [|? ? Pi Pl]; subst.
    destruct (does_item_match n a s t i) eqn:E; [apply does_item_match_iff in E; now elim H|]. now apply IH.
Qed.

Lemma print_args_run l r st inp es out : arg_lines l r ->
  run st (ctx inp es out) (print_args l) = Done (st, ctx inp es (out ++ r), inl tt).
Proof.
  intros H. revert out. induction H as [|key v l k w t r K J T _ IH]; intros out; cbn [print_args run_prog].
  - now rewrite app_nil_r.
  - apply before_nul_det in K, T. apply (joined_det _ _ _ _ (value_str_joined v)) in J. subst.
    rewrite ctx_line, IH, <- !app_assoc. reflexivity.
Qed.

Lemma print_floats_run l r st inp es out : float_lines uf l r ->
  run st (ctx inp es out) (print_floats uf l) = Done (st, ctx inp es (out ++ r), inl tt).
Proof.
  destruct (float_implements uf) as [A _].
  intros H. revert out. induction H as [|key v l k x t r D K T _ IH|key v l r N _ IH]; intros out; cbn [print_floats run_prog].
  - now rewrite app_nil_r.
  - assert (V : value_in binary32 x).
    { destruct D as (s & -> & D). apply C58_exact in D; [|exact binary32_sane]. exact (C58_result_in_format binary32 uf s x binary32_sane D). }
    apply A in D. rewrite D. apply shows_fixed_iff in T; [|exact V]. apply before_nul_det in K. subst.
    cbn [run_prog]. rewrite ctx_line, IH, <- !app_assoc. reflexivity.
  - destruct (from_value (float_ser uf) v) as [x|e] eqn:E; [|apply IH]. apply A in E. now elim (N x).
Qed.

Lemma show_any_run title v es' r (k : prog (list item) fn unit) st inp es out : value_no_nul v ->
  any_shown p nm title v es' r ->
  run st (ctx inp es out) (show_any p nm title v k) = run st (ctx inp (es ++ es') (out ++ r)) k.
Proof.
  intros N H. destruct (bool_implements p nm (char_signed p)) as [B Be].
  destruct (integer_implements p nm CInt) as [I Ie]. unfold show_any.
  destruct H as [b D|z t Nb D C|e e' E E'].
  - apply B in D. unfold bool_ser. rewrite D. cbn [run_prog]. rewrite ctx_line, app_nil_r. now rewrite <- !app_assoc.
  - unfold bool_ser, int_ser. destruct (from_value (bool_serializer (char_signed p)) v) as [b|e0] eqn:X.
    { apply B in X. now elim (Nb b). }
    assert (R : in_range p CInt z) by (destruct D as (s & -> & D); inversion D; subst; assumption).
    apply I in D. rewrite D. cbn [run_prog]. rewrite ctx_line, app_nil_r.
    assert (Q : t = printf_d z) by (apply canonical_d; exact C).
    rewrite Q. now rewrite <- !app_assoc.
  - apply (Be v e N) in E. apply (Ie v e' N) in E'. unfold bool_ser, int_ser. rewrite E, E'. cbn [run_prog].
    rewrite !ctx_report, <- app_assoc, app_nil_r. reflexivity.
Qed.
End Run.
End Commands.
