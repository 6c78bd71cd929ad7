(** C70: the work of parsing a command. *)
From Coq Require Import Ascii String NArith ZArith Bool PeanoNat Lia List.
Import ListNotations.
From Verif Require Import Base Lexer LexerCost LexerCostProofs.

(** Counting does not change what the lexer does. *)
Theorem C70_same : forall sg cfg cmd, snd (parse_c sg cfg cmd) = parse sg cfg cmd.
Proof. exact parse_same. Qed.

(** Whatever the text and however parsing ends, at most seven characters are read
    per character of the text. *)
Theorem C70_reads : forall sg cfg cmd,
  reads (fst (parse_c sg cfg cmd)) <= 7 * length cmd.
Proof.
  intros sg cfg cmd. pose proof (parse_spends sg cfg cmd) as H. unfold spends in H.
  destruct (snd (parse_c sg cfg cmd)); apply H.
Qed.

(** A text that parses is read completely. *)
Theorem C70_reads_all : forall sg cfg cmd vi,
  parse sg cfg cmd = Done (Value vi) -> length cmd <= reads (fst (parse_c sg cfg cmd)).
Proof.
  intros sg cfg cmd vi E. pose proof (parse_spends sg cfg cmd) as H. unfold spends in H.
  rewrite parse_same, E in H. apply H.
Qed.

(** Each character read is compared with at most '=' and every character of the
    lexer's configuration. *)
Theorem C70_compares : forall sg cfg cmd,
  compares (fst (parse_c sg cfg cmd)) <=
  (1 + length (m_spaceCharacters cfg) + length (m_groupParentheses cfg) +
   length (m_quotes cfg) + length (m_groupSeparators cfg)) *
  reads (fst (parse_c sg cfg cmd)).
Proof.
  intros sg cfg cmd. pose proof (parse_cheap sg cfg cmd) as H. unfold cheap, classes in H.
  rewrite Nat.add_0_r in H. exact H.
Qed.

(** At most three vector elements are made per character. *)
Theorem C70_pushes : forall sg cfg cmd,
  pushes (fst (parse_c sg cfg cmd)) <= 3 * length cmd.
Proof.
  intros sg cfg cmd. pose proof (parse_spends sg cfg cmd) as H. unfold spends in H.
  destruct (snd (parse_c sg cfg cmd)); apply H.
Qed.

(** Hence parsing takes linear time; for the default configuration: *)
Theorem C70_linear : forall sg cmd,
  let t := fst (parse_c sg default_cfg cmd) in
  reads t + compares t + pushes t <= 94 * length cmd.
Proof.
  intros sg cmd t. pose proof (C70_reads sg default_cfg cmd) as H1.
  pose proof (C70_compares sg default_cfg cmd) as H2.
  pose proof (C70_pushes sg default_cfg cmd) as H3. fold t in H1, H2, H3.
  change (1 + length (m_spaceCharacters default_cfg) + length (m_groupParentheses default_cfg) +
   length (m_quotes default_cfg) + length (m_groupSeparators default_cfg)) with 12 in H2. lia.
Qed.

(** * Examples *)

(** A call: what is counted. *)
Example C70_ex_call :
  parse_c true default_cfg (lit "f 1,2 (a b) k='x y'") =
  (Ticks 48 258 14,
   Done (Value (VInput (View 0 1)
     [[View 2 1; View 4 1]; [View 7 1; View 9 1]]
     [(View 12 1, [View 15 3])]))).
Proof. vm_compute. reflexivity. Qed.

(** Texts that end in an error or a fault are counted too. *)
Example C70_ex_error :
  parse_c true default_cfg (lit "(a b) f") =
  (Ticks 15 59 2, Done (Error (lit "Unexpected token 'a b' at the beginning of the expression"))).
Proof. vm_compute. reflexivity. Qed.
Example C70_ex_fault :
  parse_c true default_cfg (lit "f (')") = (Ticks 13 66 2, Fault AssertFailed).
Proof. vm_compute. reflexivity. Qed.

(** Tokenising alone can take three reads per character. *)
Example C70_ex_quote :
  fst (parse_c true default_cfg (lit "a'")) = Ticks 6 42 1.
Proof. vm_compute. reflexivity. Qed.

(** * Assumptions *)
Print Assumptions C70_same.
Print Assumptions C70_reads.
Print Assumptions C70_reads_all.
Print Assumptions C70_compares.
Print Assumptions C70_pushes.
Print Assumptions C70_linear.
