(** C07: envelope headers. *)
From Coq Require Import NArith List Bool.
From Verif Require Import HeaderModel HeaderSpec HeaderProofs.
Import ListNotations.
Open Scope N_scope.

Theorem header_roundtrip : forall h payload,
  read_header (write_header h ++ payload) = inl (h, payload).
Proof. exact read_write. Qed.
Print Assumptions header_roundtrip.

Theorem header_fixed_size : forall h, length (write_header h) = 10%nat.
Proof. exact write_length. Qed.
Print Assumptions header_fixed_size.

(** The reader accepts exactly the documented encodings... *)
Theorem header_accepts_exactly : forall r h rest, Forall is_byte r ->
  read_header r = inl (h, rest) <-> encodes r h rest.
Proof. exact read_iff_encodes. Qed.
Print Assumptions header_accepts_exactly.

(** ... each of which is what the writer produces for the header returned. *)
Theorem header_canonical : forall r h rest, Forall is_byte r ->
  read_header r = inl (h, rest) -> r = write_header h ++ rest.
Proof. exact accepted_canonical. Qed.
Print Assumptions header_canonical.

(** Every rejection is for the reported reason; unknown flags are listed exactly. *)
Theorem header_errors_precise : forall r, Forall is_byte r ->
  match read_header r with
  | inl (h, rest) => encodes r h rest
  | inr UnexpectedEof =>
      (length r < 8)%nat \/ r = magic_ascii \/
      exists d, r = magic_ascii ++ [d] /\ from_repr d <> None
  | inr (MagicNumber m) => m <> magic_ascii /\ length m = 8%nat /\ exists rest, r = m ++ rest
  | inr (InvalidFormatDescriptor d) =>
      (forall f, ~ known_format d f) /\ exists rest, r = magic_ascii ++ d :: rest
  | inr (FlagUnsupported ids) =>
      exists d fl rest, r = magic_ascii ++ d :: fl :: rest /\
        (exists i, unknown_flag fl i) /\ forall i, In i ids <-> unknown_flag fl i
  end.
Proof. exact errors_precise. Qed.
Print Assumptions header_errors_precise.

Theorem header_truncation_detected : forall h n, (n < 10)%nat ->
  read_header (firstn n (write_header h)) = inr UnexpectedEof.
Proof. exact truncated_rejected. Qed.
Print Assumptions header_truncation_detected.

Example header_nonvacuous :
  write_header (mk_header ModelText true) = [72;85;71;82;105;72;74;118;40;65] /\
  read_header [72;85;71;82;105;72;74;118;63;64;1;2;3] = inl (mk_header PackageJson false, [1;2;3]) /\
  read_header [72;85;71;82;105;72;74;118;63;6] = inr (FlagUnsupported [1;2;6]) /\
  Forall is_byte [72;85;71;82;105;72;74;118;63;64;1;2;3].
Proof. repeat split; repeat constructor. Qed.
