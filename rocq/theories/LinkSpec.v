(** What linking one HUGR into another should do, independent of the code. *)
From Coq Require Import List Bool NArith Permutation.
From Verif Require Import GraphModel GraphSpec InsertModel LinkModel.
Import ListNotations.

(** The pairs (node of the host to be replaced, module child that replaces it). *)
Definition replacements (children : list (N * directive)) : list (N * N) :=
  flat_map (fun c => match snd c with Add rs => map (fun r => (r, fst c)) rs | UseExisting _ => [] end) children.
(** The pairs (module child that is not inserted, node of the host used instead). *)
Definition substitutes (children : list (N * directive)) : list (N * N) :=
  flat_map (fun c => match snd c with Add _ => [] | UseExisting tn => [(fst c, tn)] end) children.

Definition added (children : list (N * directive)) (sn : N) : Prop := exists rs, In (sn, Add rs) children.

Section Spec.
  Context {O M : Type}.
  Notation hugr := (hugr O M).

  (** Directives that make sense. *)
  Record acceptable (other : hugr) (parent : option N) (children : list (N * directive)) : Prop := {
    ac_whole : parent <> None -> h_entry other = h_root other -> children = [];
    ac_entry : parent <> None -> h_entry other <> h_root other -> ~ In (h_entry other) (map fst children);
    ac_above : parent <> None -> h_entry other <> h_root other -> forall sn, added children sn -> ~ below other (h_entry other) sn;
    ac_root : forall sn, In sn (map fst children) -> h_parent other sn = Some (h_root other);
    ac_once : NoDup (map fst (replacements children)) }.

  (** What the errors say. *)
  Definition justified (other : hugr) (parent : option N) (children : list (N * directive)) (e : link_error) : Prop :=
    match e with
    | ChildOfEntrypoint sn => parent <> None /\ h_entry other = h_root other /\ In sn (map fst children)
    | ChildContainsEntrypoint sn => parent <> None /\ h_entry other <> h_root other /\
        (sn = h_entry other /\ In sn (map fst children) \/ added children sn /\ below other (h_entry other) sn)
    | NotChildOfRoot sn => In sn (map fst children) /\ h_parent other sn <> Some (h_root other)
    | NodeMultiplyReplaced tn a b => exists xs ys zs, replacements children = xs ++ (tn, a) :: ys ++ (tn, b) :: zs
    end.

  (** Nodes of the host that are removed, nodes of the other HUGR that are inserted. *)
  Definition gone (h : hugr) (children : list (N * directive)) (y : N) : Prop :=
    exists r, In r (map fst (replacements children)) /\ below h y r.
  Definition inserted (other : hugr) (parent : option N) (children : list (N * directive)) (x : N) : Prop :=
    (parent <> None /\ below other x (h_entry other)) \/ exists sn, added children sn /\ below other x sn.

  (** At most one link ends at the input port of [l]. *)
  Definition only_source (ls : list link) (l : link) : Prop := length (filter (fun l' => ep_eqb (snd l') (snd l)) ls) <= 1.

  (** What the documentation takes for granted: the nodes named in the directives are module children
      with as many ports as needed, each of their links is the only one of its input port (as for static
      edges), and neither the entrypoint nor the parent of the insertion is removed. *)
  Record linkable (h other : hugr) (parent : option N) (children : list (N * directive)) : Prop := {
    lk_parent : forall p, parent = Some p -> In p (h_nodes h) /\ ~ gone h children p;
    lk_entry : ~ gone h children (h_entry h);
    lk_replaced : forall r sn, In (r, sn) (replacements children) -> h_parent h r = Some (h_root h) /\ h_out h r <= h_out other sn;
    lk_existing : forall sn tn, In (sn, tn) (substitutes children) -> h_parent h tn = Some (h_root h) /\ h_out other sn <= h_out h tn;
    lk_host_source : forall l, In l (h_links h) -> In (fst (fst l)) (map fst (replacements children)) -> only_source (h_links h) l;
    lk_new_source : forall l, In l (h_links other) -> In (fst (fst l)) (map fst (substitutes children)) -> only_source (h_links other) l }.

  (** The links of the result, given which nodes of the host are gone and which of the other HUGR are inserted. *)
  Section Links.
    Variable gone inserted : N -> bool.
    Variable children : list (N * directive).
    Variable f : N -> N.
    Definition host_link (l : link) : list link :=
      let '((s, i), (t, j)) := l in
      if gone t then []
      else match lookup (replacements children) s with
           | Some sn => [((f sn, i), (t, j))]
           | None => if gone s then [] else [((s, i), (t, j))]
           end.
    Definition new_link (l : link) : list link :=
      let '((s, i), (t, j)) := l in
      if inserted t then
        match lookup (substitutes children) s with
        | Some tn => match lookup (replacements children) tn with
                     | Some sn => [((f sn, i), (f t, j))]
                     | None => [((tn, i), (f t, j))]
                     end
        | None => if inserted s then [((f s, i), (f t, j))] else []
        end
      else [].
  End Links.

  (** The result of linking; nothing is said about the metadata of the copies. *)
  Record merged (h other : hugr) (parent : option N) (children : list (N * directive)) (f : N -> N) (m : list (N * N)) (h' : hugr) : Prop := {
    mg_wf : wf h';
    mg_map : forall x y, lookup m x = Some y <-> inserted other parent children x /\ y = f x;
    mg_fresh : forall x, inserted other parent children x -> ~ In (f x) (h_nodes h);
    mg_inj : forall x y, inserted other parent children x -> inserted other parent children y -> f x = f y -> x = y;
    mg_nodes : forall y, In y (h_nodes h') <-> (In y (h_nodes h) /\ ~ gone h children y) \/ exists x, inserted other parent children x /\ y = f x;
    mg_host : forall y, In y (h_nodes h) -> ~ gone h children y -> same_node h h' y /\
      exists kept more, h_kids h' y = filter kept (h_kids h y) ++ map f more /\
        (forall c, kept c = true <-> ~ gone h children c) /\ NoDup more /\
        forall x, In x more <-> (parent = Some y /\ x = h_entry other) \/ (y = h_root h /\ added children x);
    mg_copy : forall x, inserted other parent children x ->
      h_ops h' (f x) = h_ops other x /\ h_in h' (f x) = h_in other x /\ h_out h' (f x) = h_out other x /\
      h_kids h' (f x) = map f (h_kids other x) /\
      (added children x -> h_parent h' (f x) = Some (h_root h)) /\
      (parent <> None -> x = h_entry other -> h_parent h' (f x) = parent);
    mg_links : exists gn ins, (forall y, gn y = true <-> gone h children y) /\ (forall x, ins x = true <-> inserted other parent children x) /\
      Permutation (h_links h') (flat_map (host_link gn children f) (h_links h) ++ flat_map (new_link ins children f) (h_links other));
    mg_root : h_root h' = h_root h;
    mg_entry : h_entry h' = h_entry h }.
End Spec.
