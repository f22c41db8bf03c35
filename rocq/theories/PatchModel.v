(** Model of small patches: inserting an identity on a wire, removing unused constants and loads of constants.
    Source: hugr-core/src/hugr/patch/insert_identity.rs, patch/consts.rs.

    A panic of the code is a value of the result type.  After an error the graph is part of the result, because the errors
    are reported after changes.  The new node is a parameter; [noop] builds the operation that passes on a value of a type.
    [PatchVerification::verify] of the identity is [unimplemented!()], so it is not modelled. *)
From Coq Require Import List Bool NArith Arith.
From Verif Require Import TagModel TypesModel GraphModel OpModel DeadModel InlineModel ReplaceModel.
Import ListNotations.

Section Patch.
  Context {M : Type}.
  Notation hugr := (hugr op M).
  Variable noop : ty -> op.

  (** insert_identity.rs:36-49 [IdentityInsertionError]; [InvalidNode] is never returned *)
  Inductive identity :=
  | IdInserted (h : hugr) (new : N)
  | IdBadParent (after : hugr)
  | IdBadKind (k : option ekind) (after : hugr)
  | IdPanic.

  (** insert_identity.rs:79-109 [apply_hugr_mut] *)
  Definition insert_identity (new : N) (h : hugr) (n : N) (k : nat) : identity :=
    if contains h n then
      match port_kind (h_ops h n) Inc k with
      | Some (EValue t) =>
        match single_linked_output h n k with
        | None => IdPanic
        | Some (s, i) =>
          match disconnect h n Inc k with
          | None => IdPanic
          | Some h1 =>
            match get_parent h1 n with
            | None => IdBadParent h1
            | Some p =>
              if flow_parent (h_ops h1 p) then
                match add_node_with_parent OpModel.in_count OpModel.out_count h1 new p (noop t) with
                | None => IdPanic
                | Some h2 =>
                  match connect h2 s i new 0 with
                  | None => IdPanic
                  | Some h3 => match connect h3 new 0 n k with Some h4 => IdInserted h4 new | None => IdPanic end
                  end
                end
              else IdBadParent h1
            end
          end
        end
      | kd => IdBadKind kd h
      end
    else IdPanic.

  (** consts.rs:15-24 [RemoveError] *)
  Inductive removal :=
  | Removed (h : hugr) (from : N)
  | InvalidNode (n : N)
  | ValueUsed (n : N)
  | RemovePanic.

  Definition is_load_constant (o : op) : bool := match o with OLoadConstant _ => true | _ => false end.
  Definition is_const (o : op) : bool := match o with OConst _ _ _ => true | _ => false end.

  (** consts.rs:30-45 [verify], :60-73 [apply_hugr_mut] *)
  Definition remove_load_constant (h : hugr) (n : N) : removal :=
    if contains h n && is_load_constant (h_ops h n) then
      match linked_inputs h n 0 with
      | _ :: _ => ValueUsed n
      | [] =>
        match input_neighbours h n with
        | [source] => match remove_node OModule h n with Some h' => Removed h' source | None => RemovePanic end
        | _ => RemovePanic
        end
      end
    else InvalidNode n.

  (** consts.rs:84-96 [verify], :106-122 [apply_hugr_mut] *)
  Definition remove_const (h : hugr) (n : N) : removal :=
    if contains h n && is_const (h_ops h n) then
      match output_neighbours h n with
      | _ :: _ => ValueUsed n
      | [] =>
        match get_parent h n with
        | Some p => match remove_node OModule h n with Some h' => Removed h' p | None => RemovePanic end
        | None => RemovePanic
        end
      end
    else InvalidNode n.
End Patch.
