(** What the registry should hold for one name after a history. *)
From Coq Require Import List Bool.
From Verif Require Import BMap RegistryModel.
Import ListNotations.

(** Strict total order on versions. *)
Record strict_total {V : Type} (lt : V -> V -> bool) : Prop := {
  st_irrefl : forall a, lt a a = false;
  st_trans : forall a b c, lt a b = true -> lt b c = true -> lt a c = true;
  st_total : forall a b, lt a b = false -> lt b a = false -> a = b
}.

Section Spec.
  Context {E K V : Type} (name : E -> K) (ver : E -> V) (vlt : V -> V -> bool).

  (** [e] is the first offer of the greatest version in [offers]. *)
  Definition first_greatest (offers : list E) (e : E) : Prop :=
    exists before after, offers = before ++ e :: after /\
      (forall x, In x before -> vlt (ver x) (ver e) = true) /\
      (forall x, In x after -> vlt (ver e) (ver x) = false).

  (** How one operation changes the content for the name [n], without any map. *)
  Inductive slot_step (n : K) : option E -> reg_op (E:=E) (K:=K) -> option E -> Prop :=
  | SS_reg_free e : name e = n -> slot_step n None (ORegister e) (Some e)
  | SS_reg_taken e c : name e = n -> slot_step n (Some c) (ORegister e) (Some c)
  | SS_reg_other e c : name e <> n -> slot_step n c (ORegister e) c
  | SS_up_free e : name e = n -> slot_step n None (OUpdate e) (Some e)
  | SS_up_newer e c : name e = n -> vlt (ver c) (ver e) = true ->
      slot_step n (Some c) (OUpdate e) (Some e)
  | SS_up_older e c : name e = n -> vlt (ver c) (ver e) = false ->
      slot_step n (Some c) (OUpdate e) (Some c)
  | SS_up_other e c : name e <> n -> slot_step n c (OUpdate e) c
  | SS_remove c : slot_step n c (ORemove n) None
  | SS_remove_other k c : k <> n -> slot_step n c (ORemove k) c
  | SS_ext_nil c : slot_step n c (OExtend []) c
  | SS_ext_cons c e es d f : slot_step n c (OUpdate e) d -> slot_step n d (OExtend es) f ->
      slot_step n c (OExtend (e :: es)) f
  | SS_validate c : slot_step n c OValidate c
  | SS_clone c : slot_step n c OClone c.

  Inductive slot_run (n : K) : option E -> list (reg_op (E:=E) (K:=K)) -> option E -> Prop :=
  | SR_nil c : slot_run n c [] c
  | SR_cons c o d ops f : slot_step n c o d -> slot_run n d ops f -> slot_run n c (o :: ops) f.
End Spec.
