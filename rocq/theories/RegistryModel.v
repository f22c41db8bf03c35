(** Model of the extension registry. Source: hugr-core/src/extension.rs l.47-227, l.330-374.

    Extensions are abstract, with a name, a version and the result of their own [validate];
    the name order is the map order of [BTreeMap<ExtensionId, _>], the version order is
    [semver::Version]'s [<] (external crate).  [Arc] identity is not modelled; [valid] is an
    [AtomicBool] accessed through [&self] only by [validate], which Rust's borrow rules keep
    from overlapping with the [&mut self] mutators, so it is a plain field here. *)
From Coq Require Import List Bool.
From Verif Require Import BMap.
Import ListNotations.

Section Registry.
  Context {E K V : Type}.
  Context (name : E -> K) (ver : E -> V).
  Context (kcmp : K -> K -> comparison) (vlt : V -> V -> bool).
  Context (ext_ok : E -> bool).          (* Extension::validate().is_ok() *)

  (** l.49-60. *)
  Record registry := mk_reg { exts : list (K * E); valid : bool }.

  (** [Default]: empty, flag unset. *)
  Definition reg_default : registry := mk_reg [] false.
  (** l.371-374: [EMPTY_REG]. *)
  Definition reg_EMPTY : registry := mk_reg [] true.

  (** l.106-108. *)
  Definition reg_get (n : K) (r : registry) : option E := bm_get kcmp n (exts r).

  (** l.116-126: first failing extension in key order, or success with the flag set. *)
  Definition reg_validate (r : registry) : registry * option K :=
    if valid r then (r, None)
    else match find (fun kv => negb (ext_ok (snd kv))) (exts r) with
         | Some kv => (r, Some (name (snd kv)))
         | None => (mk_reg (exts r) true, None)
         end.

  (** l.131-151: [register]; the boolean says whether it was accepted, with the versions
      (previous, offered) on conflict. *)
  Definition reg_register (e : E) (r : registry) : registry * option (V * V) :=
    match bm_get kcmp (name e) (exts r) with
    | Some prev => (r, Some (ver prev, ver e))
    | None => (mk_reg (bm_insert kcmp (name e) e (exts r)) false, None)
    end.

  (** l.161-175: [register_updated]; l.186-199 [register_updated_ref] is the same on the data. *)
  Definition reg_update (e : E) (r : registry) : registry :=
    match bm_get kcmp (name e) (exts r) with
    | Some prev =>
        if vlt (ver prev) (ver e) then mk_reg (bm_insert kcmp (name e) e (exts r)) false
        else mk_reg (exts r) false
    | None => mk_reg (bm_insert kcmp (name e) e (exts r)) false
    end.

  (** l.222-227. *)
  Definition reg_remove (n : K) (r : registry) : registry * option E :=
    (mk_reg (bm_remove kcmp n (exts r)) false, bm_get kcmp n (exts r)).

  (** l.330-344: [extend]; l.79-85: [new]. *)
  Definition reg_extend (es : list E) (r : registry) : registry :=
    fold_left (fun r e => reg_update e r) es r.
  Definition reg_new (es : list E) : registry := reg_extend es reg_default.

  (** l.360-368: [Serialize] writes the extensions in key order; l.350-358 [Deserialize] is
      [new] of the decoded list (the JSON text of one extension is not modelled). *)
  Definition reg_values (r : registry) : list E := map snd (exts r).

  Inductive reg_op :=
  | ORegister (e : E) | OUpdate (e : E) | ORemove (n : K) | OExtend (es : list E)
  | OValidate | OClone.

  Definition reg_step (r : registry) (o : reg_op) : registry :=
    match o with
    | ORegister e => fst (reg_register e r)
    | OUpdate e => reg_update e r
    | ORemove n => fst (reg_remove n r)
    | OExtend es => reg_extend es r
    | OValidate => fst (reg_validate r)
    | OClone => r                        (* l.68-75: clone copies content and flag *)
    end.

  Definition reg_run (ops : list reg_op) (r : registry) : registry := fold_left reg_step ops r.
End Registry.
