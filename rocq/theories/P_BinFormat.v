(** Property C04.  [step_ok] says that every variable, literal, hash and size is
    a value that exists in the program (indices at most [max_var], slices at most
    [isize::MAX] bytes). *)
From Verif Require Import Spec Lit Vli VliProofs BinFormat BinFormatProofs.

Theorem C04_roundtrip : forall ss rest r, Forall step_ok ss -> reader_ok r -> Forall is_byte rest ->
  flat r = flat_map write_step ss ++ rest ->
  exists r', parse_many (length ss) r = POk (ss, r') /\ flat r' = rest /\ reader_ok r'.
Proof. exact parse_many_write. Qed.
Print Assumptions C04_roundtrip.

Definition C04_sample : list proof_step :=
  [SolverVarName 3 (Some 0); SolverVarName 3 None; UserVarName 7 (Some 7); UserVarName 7 None; DeleteVar 9;
   ChangeSamplingMode 1 true; ChangeSamplingMode 1 false; AddClause [2;5]; AddClause [];
   AtClause true [1;2;3] [77; 2^64-1]; AtClause false [] []; UnitClauses [(4, 5); (6, 2^60)];
   DeleteClause [1] DRedundant; DeleteClause [1] DSimplified; DeleteClause [2;3] DSatisfied;
   ChangeHashBits 12; Model [0;3]; Assumptions [1]; FailedAssumptions [1] [9]; End].
Example C04_ex :
  Forall step_ok C04_sample /\
  match parse_many 20 ([], [flat_map write_step C04_sample; [1;2;3]]) with
  | POk (ss, r) => ss = C04_sample /\ flat r = [1;2;3]
  | _ => False
  end /\
  match parse_many 20 ([], map (fun b => [b]) (flat_map write_step C04_sample)) with
  | POk (ss, r) => ss = C04_sample /\ flat r = []
  | _ => False
  end.
Proof.
  split; [|vm_compute; repeat split; reflexivity].
  repeat apply Forall_cons; try apply Forall_nil; cbn; repeat split;
    repeat apply Forall_cons; try apply Forall_nil; cbn; try split; vm_compute; congruence.
Qed.

(** No two step sequences share an encoding, and no encoding is a proper prefix
    of another one. *)
Theorem C04_prefix_free : forall s1 s2 r1 r2, step_ok s1 -> step_ok s2 ->
  write_step s1 ++ r1 = write_step s2 ++ r2 -> s1 = s2 /\ r1 = r2.
Proof. exact write_step_inj. Qed.
Print Assumptions C04_prefix_free.

(** A step cut off anywhere is reported as end of file, never as another step. *)
Theorem C04_truncation_detected : forall s p q r, step_ok s -> write_step s = p ++ q -> q <> [] ->
  reader_ok r -> flat r = p -> parse_step r = PEof.
Proof. exact truncated_eof. Qed.
Print Assumptions C04_truncation_detected.
Example C04_truncation_ex :
  step_ok (AtClause true [1;2;3] [77; 5]) /\ length (write_step (AtClause true [1;2;3] [77; 5])) = 8%nat /\
  forallb (fun k => match parse_step (firstn k (write_step (AtClause true [1;2;3] [77; 5])), []) with PEof => true | _ => false end)
    (seq 0 8) = true.
Proof. split; [cbn; repeat split; repeat constructor; vm_compute; congruence|]. split; vm_compute; reflexivity. Qed.
