(** Composing compiler passes.

    Source: hugr-passes/src/composable.rs.

    A pass changes the HUGR it is given in place and returns a result or an error; both the changed
    HUGR and the outcome are kept, also on error.  The HUGR and the pass bodies are arbitrary. *)

(** Rust [Result]. *)
Inductive res (R E : Type) := ROk (r : R) | RErr (e : E).
Arguments ROk {R E} r.
Arguments RErr {R E} e.

(** composable.rs:15-18 [ComposablePass::run]. *)
Definition pass (H R E : Type) := H -> H * res R E.

(** Rust [Result::map_err]. *)
Definition res_map_err {R E E2} (f : E -> E2) (r : res R E) : res R E2 :=
  match r with ROk r => ROk r | RErr e => RErr (f e) end.

Section Passes.
  Context {H : Type}.

  (** composable.rs:20-28 and 95-113 [map_err], [ErrMapper]. *)
  Definition map_err {R E E2} (p : pass H R E) (f : E -> E2) : pass H R E2 :=
    fun h => let (h', r) := p h in (h', res_map_err f r).

  (** composable.rs:30-55 [then]; [from1] and [from2] are the [ErrorCombiner] (58-84). *)
  Definition seq {R1 R2 E1 E2 E} (from1 : E1 -> E) (from2 : E2 -> E)
      (p1 : pass H R1 E1) (p2 : pass H R2 E2) : pass H (R1 * R2) E :=
    fun h =>
      let (h1, r1) := p1 h in
      match res_map_err from1 r1 with
      | RErr e => (h1, RErr e)
      | ROk a =>
        let (h2, r2) := p2 h1 in
        match res_map_err from2 r2 with
        | RErr e => (h2, RErr e)
        | ROk b => (h2, ROk (a, b))
        end
      end.

  (** composable.rs:115-151 [ValidatePassError], without the rendered HUGR. *)
  Inductive vperr (V E : Type) := VInput (v : V) | VOutput (v : V) | VUnderlying (e : E).
  Arguments VInput {V E} v.
  Arguments VOutput {V E} v.
  Arguments VUnderlying {V E} e.

  (** composable.rs:153-195 [ValidatingPass].  [validate] only reads the HUGR. *)
  Definition validating {R E V} (validate : H -> option V) (p : pass H R E)
    : pass H R (vperr V E) :=
    fun h =>
      match validate h with
      | Some v => (h, RErr (VInput v))
      | None =>
        let (h1, r) := p h in
        match r with
        | RErr e => (h1, RErr (VUnderlying e))
        | ROk a =>
          match validate h1 with
          | Some v => (h1, RErr (VOutput v))
          | None => (h1, ROk a)
          end
        end
      end.

  (** composable.rs:196-228 [IfThen]. *)
  Definition if_then {R E1 E2 E} (from1 : E1 -> E) (from2 : E2 -> E)
      (p1 : pass H bool E1) (p2 : pass H R E2) : pass H (option R) E :=
    fun h =>
      let (h1, r1) := p1 h in
      match res_map_err from1 r1 with
      | RErr e => (h1, RErr e)
      | ROk b =>
        if b then
          let (h2, r2) := p2 h1 in
          match res_map_err from2 r2 with
          | RErr e => (h2, RErr e)
          | ROk x => (h2, ROk (Some x))
          end
        else (h1, ROk None)
      end.

  (** composable.rs:229-242 [validate_if_test]; [test] is [cfg!(test)]. *)
  Definition validate_if_test {R E V} (test : bool) (validate : H -> option V) (p : pass H R E)
    : pass H R (vperr V E) :=
    if test then validating validate p
    else fun h => let (h', r) := p h in
                  (h', match r with ROk a => ROk a | RErr e => RErr (VUnderlying e) end).
End Passes.
Arguments VInput {V E} v.
Arguments VOutput {V E} v.
Arguments VUnderlying {V E} e.
