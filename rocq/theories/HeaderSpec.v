(** Independent description of the envelope header, after the format documentation
    (hugr-core/src/envelope.rs l.1-40): 8 magic bytes, a format byte, a flags byte whose bit 6
    is set, whose bit 0 says whether the payload is compressed and whose other bits are 0. *)
From Coq Require Import NArith List Bool.
From Verif Require Import HeaderModel.
Import ListNotations.
Open Scope N_scope.

Definition is_byte (b : N) : Prop := b < 256.

(** Known format bytes. *)
Definition known_format (d : N) (f : format) : Prop :=
  (d = 1 /\ f = Model) \/ (d = 2 /\ f = ModelWithExtensions) \/ (d = 40 /\ f = ModelText) \/
  (d = 41 /\ f = ModelTextWithExtensions) \/ (d = 63 /\ f = PackageJson).

Definition magic_ascii : list N := [72; 85; 71; 82; 105; 72; 74; 118]. (* H U G R i H J v *)

(** [bs] starts with a well-formed encoding of [h], and [rest] follows it. *)
Definition encodes (bs : list N) (h : header) (rest : list N) : Prop :=
  exists d fl, bs = magic_ascii ++ d :: fl :: rest /\ known_format d (h_format h) /\ is_byte fl /\
    N.testbit fl 6 = true /\ (N.testbit fl 0 = h_zstd h) /\
    forall i, i <> 0 -> i <> 6 -> N.testbit fl i = false.

(** The flag bits a reader cannot understand. *)
Definition unknown_flag (fl i : N) : Prop :=
  i < 8 /\ i <> 0 /\ N.testbit fl i = negb (i =? 6).
