(** Model of the envelope header codec.
    Source: hugr-core/src/envelope/header.rs. Bytes are [N] below 256. *)
From Coq Require Import NArith List Bool.
Import ListNotations.
Open Scope N_scope.

(** l.13: "HUGRiHJv". *)
Definition MAGIC_NUMBERS : list N := [72; 85; 71; 82; 105; 72; 74; 118].
(** l.17, l.19. *)
Definition DEFAULT_FLAGS : N := 64.
Definition ZSTD_FLAG : N := 1.

(** l.40-73: [enum EnvelopeFormat] with its discriminants. *)
Inductive format := Model | ModelWithExtensions | ModelText | ModelTextWithExtensions | PackageJson.
Definition format_byte (f : format) : N :=
  match f with
  | Model => 1 | ModelWithExtensions => 2 | ModelText => 40
  | ModelTextWithExtensions => 41 | PackageJson => 63
  end.
(** [strum::FromRepr] on that enum. *)
Definition from_repr (d : N) : option format :=
  match d with
  | 1 => Some Model | 2 => Some ModelWithExtensions | 40 => Some ModelText
  | 41 => Some ModelTextWithExtensions | 63 => Some PackageJson | _ => None
  end.

(** l.28-33. *)
Record header := mk_header { h_format : format; h_zstd : bool }.

(** l.211-254; only the data carried is kept. *)
Inductive header_error :=
| MagicNumber (found : list N)
| InvalidFormatDescriptor (d : N)
| UnexpectedEof
| FlagUnsupported (flag_ids : list N).

(** l.276-294: [write], appended to the writer's content. *)
Definition write_header (h : header) : list N :=
  let flags := if h_zstd h then N.lor DEFAULT_FLAGS ZSTD_FLAG else DEFAULT_FLAGS in
  MAGIC_NUMBERS ++ [format_byte (h_format h)] ++ [flags].

(** [Read::read_exact] of [n] bytes from an in-memory reader. *)
Definition read_exact (n : nat) (r : list N) : option (list N * list N) :=
  if Nat.ltb (length r) n then None else Some (firstn n r, skipn n r).

Fixpoint list_eqb (a b : list N) : bool :=
  match a, b with
  | [], [] => true
  | x :: a', y :: b' => (x =? y) && list_eqb a' b'
  | _, _ => false
  end.

(** l.300-340: [read]; returns the header and the unread rest of the input. *)
Definition read_header (r : list N) : (header * list N) + header_error :=
  match read_exact 8 r with
  | None => inr UnexpectedEof
  | Some (magic, r1) =>
      if negb (list_eqb magic MAGIC_NUMBERS) then inr (MagicNumber magic)
      else match read_exact 1 r1 with
      | None => inr UnexpectedEof
      | Some (fb, r2) =>
          let d := hd 0 fb in
          match from_repr d with
          | None => inr (InvalidFormatDescriptor d)
          | Some f =>
              match read_exact 1 r2 with
              | None => inr UnexpectedEof
              | Some (gb, r3) =>
                  let flags := hd 0 gb in
                  let zstd := negb (N.land flags ZSTD_FLAG =? 0) in
                  (* [!ZSTD_FLAG] on u8 *)
                  let other_flags := N.land (N.lxor flags DEFAULT_FLAGS) (255 - ZSTD_FLAG) in
                  if negb (other_flags =? 0)
                  then inr (FlagUnsupported
                              (filter (fun i => negb (N.land other_flags (N.shiftl 1 i) =? 0))
                                      [0; 1; 2; 3; 4; 5; 6; 7]))
                  else inl (mk_header f zstd, r3)
              end
          end
      end
  end.
