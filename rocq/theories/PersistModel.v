(** Commits, commit state spaces and persistent HUGRs.

    Source: hugr-persistent/src/{persistent_hugr.rs, persistent_hugr/cache.rs, commit.rs,
    state_space.rs}.

    Only what decides which commits belong to a history is modelled: whether a commit is a base,
    its parents, and the set of nodes it deletes.  The HUGRs stored in commits are not.
    A commit object is named by its position in the [world], the list of all commits ever created
    in any state space, in creation order: the position plays the part of both [as_ptr] and the
    commit ID.  Commits are never dropped (the code reference-counts them, and an ID is only valid
    while its commit is alive). *)
From Coq Require Import List Bool Arith.
Import ListNotations.

(** state_space.rs:56-60 [CommitData] and commit.rs:62 [Commit]: the state space the commit is
    registered in, whether it is [CommitData::Base], its parents ([all_parents], commit.rs:171-177)
    and its [invalidation_set] (simple_replace.rs:531-533), a list of (owner, node). *)
Record commit := Commit {
  c_space : nat;
  c_base : bool;
  c_parents : list nat;
  c_del : list (nat * nat)
}.

Definition world := list commit.

Definition parents (w : world) (c : nat) : list nat :=
  match nth_error w c with Some x => c_parents x | None => [] end.
(** commit.rs:223-227 [deleted_parent_nodes]: nothing for a base commit. *)
Definition deleted (w : world) (c : nat) : list (nat * nat) :=
  match nth_error w c with Some x => if c_base x then [] else c_del x | None => [] end.
Definition is_base (w : world) (c : nat) : bool :=
  match nth_error w c with Some x => c_base x | None => false end.
Definition space_of (w : world) (c : nat) : nat :=
  match nth_error w c with Some x => c_space x | None => 0 end.

Definition memb (x : nat) (l : list nat) : bool := existsb (Nat.eqb x) l.

(** commit.rs:384-425, state errors that depend on the history. *)
Inductive invalid :=
| IncompatibleHistory (c n : nat)
| UnknownParent (c : nat)
| UnknownCommitId (c : nat)
| NonUniqueBase (k : nat)
| EmptyReplacement.

Inductive result (A : Type) := Ok (a : A) | Err (e : invalid).
Arguments Ok {A} a.
Arguments Err {A} e.

(** itertools [unique]: the first of each. *)
Fixpoint uniq (seen l : list nat) : list nat :=
  match l with
  | [] => []
  | x :: l => if memb x seen then uniq seen l else x :: uniq (x :: seen) l
  end.

(** relrc [all_ancestors]: a commit and everything above it.  The fuel is the depth. *)
Fixpoint up (w : world) (fuel : nat) (c : nat) : list nat :=
  match fuel with
  | O => [c]
  | S f => c :: flat_map (up w f) (parents w c)
  end.
Definition all_ancestors (w : world) (c : nat) : list nat := uniq [] (up w c c).

(** commit.rs:364-367 [get_base_ancestors]. *)
Definition base_ancestors (w : world) (c : nat) : list nat :=
  filter (is_base w) (all_ancestors w c).

(** state_space.rs:137-142 [try_set_base]. *)
Definition try_set_base (w : world) (s : nat) : option (world * nat) :=
  if existsb (fun x => c_space x =? s) w then None
  else Some (w ++ [Commit s true [] []], length w).

(** state_space.rs:163-169 [try_upgrade]. *)
Definition try_upgrade (w : world) (s c : nat) : bool :=
  match nth_error w c with Some x => c_space x =? s | None => false end.

(** commit.rs:427-439 [get_parent_commits]: the owners of the deleted nodes, all of which must be
    in the state space. *)
Definition get_parent_commits (w : world) (s : nat) (del : list (nat * nat))
  : result (list nat) :=
  let ids := uniq [] (map fst del) in
  match find (fun c => negb (try_upgrade w s c)) ids with
  | Some c => Err (UnknownParent c)
  | None => Ok ids
  end.

(** commit.rs:118-145 [Commit::try_new]; [extra] are the explicitly given parents. *)
Definition commit_try_new (w : world) (s : nat) (del : list (nat * nat)) (extra : list nat)
  : result (world * nat) :=
  match del with
  | [] => Err EmptyReplacement
  | _ =>
    match get_parent_commits w s del with
    | Err e => Err e
    | Ok ps =>
      let w' := w ++ [Commit s false (uniq [] (extra ++ ps)) del] in
      let bases := base_ancestors w' (length w) in
      if length bases =? 1 then Ok (w', length w) else Err (NonUniqueBase (length bases))
    end
  end.

(** persistent_hugr.rs:456-476, the [while] loop of [get_ancestors_while] for one starting commit.
    [done] is the processed part of the chunk, newest first, and [todo] the rest.  [None]: fuel. *)
Fixpoint walk (w : world) (cont : nat -> bool) (fuel : nat) (seen done todo : list nat)
  : option (list nat * list nat) :=
  match todo with
  | [] => Some (seen, rev done)
  | c :: todo' =>
    match fuel with
    | O => None
    | S f =>
      if cont c then
        let new := uniq seen (parents w c) in
        walk w cont f (new ++ seen) (c :: done) (todo' ++ new)
      else walk w cont f seen (c :: done) todo'
    end
  end.

(** persistent_hugr.rs:443-481 [get_ancestors_while].  [rotate_right] puts the new chunk in front
    of everything collected so far. *)
Fixpoint ancestors_from (w : world) (cont : nat -> bool) (starts seen all : list nat)
  : option (list nat) :=
  match starts with
  | [] => Some all
  | c :: starts =>
    if memb c seen then ancestors_from w cont starts seen all
    else
      match walk w cont (S (length w)) (c :: seen) [] [c] with
      | None => None
      | Some (seen', chunk) => ancestors_from w cont starts seen' (chunk ++ all)
      end
  end.
Definition get_ancestors_while (w : world) (starts : list nat) (cont : nat -> bool)
  : option (list nat) := ancestors_from w cont starts [] [].

(** persistent_hugr.rs:553-569 [find_conflicting_node]. *)
Fixpoint first_repeat (seen l : list nat) : nat + list nat :=
  match l with
  | [] => inr seen
  | n :: l => if memb n seen then inl n else first_repeat (n :: seen) l
  end.
Definition deleted_of (w : world) (c child : nat) : list nat :=
  map snd (filter (fun d => fst d =? c) (deleted w child)).
Fixpoint find_conflict (w : world) (c : nat) (seen children : list nat) : option nat :=
  match children with
  | [] => None
  | ch :: children =>
    match first_repeat seen (deleted_of w c ch) with
    | inl n => Some n
    | inr seen' => find_conflict w c seen' children
    end
  end.
Definition find_conflicting_node (w : world) (c : nat) (children : list nat) : option nat :=
  find_conflict w c [] children.

(** commit.rs:180-186 [children]: every commit with [c] among its parents. *)
Definition all_children (w : world) (c : nat) : list nat :=
  filter (fun d => memb c (parents w d)) (seq 0 (length w)).

(** persistent_hugr.rs:63-86 [PersistentHugr] and cache.rs:7-9: the commits of the history graph,
    the base, and the cached children lists. *)
Record phugr := PHugr {
  p_graph : list nat;
  p_base : nat;
  p_space : nat;
  p_cache : list (nat * list nat)
}.

(** relrc [HistoryGraph::children]: the children of [c] among the commits of the graph, each
    once.  [p_graph] stands for a set, so a list that repeats a commit means the same graph. *)
Definition graph_children (w : world) (g : list nat) (c : nat) : list nat :=
  filter (fun d => memb c (parents w d)) (uniq [] g).

Fixpoint assoc {A} (k : nat) (l : list (nat * A)) : option A :=
  match l with
  | [] => None
  | (k', v) :: l => if k =? k' then Some v else assoc k l
  end.

(** cache.rs:16-18 [invalidate_children]. *)
Definition invalidate_children (c : nat) (cache : list (nat * list nat)) :=
  filter (fun e => negb (fst e =? c)) cache.

(** persistent_hugr.rs:348-354 [children_commits] with cache.rs:22-28 [children_or_insert]. *)
Definition children_commits (w : world) (p : phugr) (c : nat) : phugr * list nat :=
  match assoc c (p_cache p) with
  | Some l => (p, l)
  | None =>
    let l := graph_children w (p_graph p) c in
    (PHugr (p_graph p) (p_base p) (p_space p) ((c, l) :: p_cache p), l)
  end.

Section Insertion.
  (** relrc [HistoryGraph::insert_node], an external call: the commits of the graph after the
      insertion.  The theorems assume only that it adds the commit and possibly some of its
      ancestors. *)
  Variable insert : world -> list nat -> nat -> list nat.

  (** persistent_hugr.rs:125-142, the loop of [try_new]. *)
  Fixpoint new_loop (w : world) (s : nat) (ids todo : list nat) (g : list nat)
    : result (list nat) :=
    match todo with
    | [] => Ok g
    | c :: todo =>
      if negb (space_of w c =? s) then Err (NonUniqueBase 2)
      else
        match find_conflicting_node w c (filter (fun d => memb d ids) (all_children w c)) with
        | Some n => Err (IncompatibleHistory c n)
        | None => new_loop w s ids todo (insert w g c)
        end
    end.

  (** persistent_hugr.rs:114-160 [try_new].  The outer [option] is the fuel. *)
  Definition try_new (w : world) (commits : list nat) : option (result phugr) :=
    match get_ancestors_while w commits (fun _ => true) with
    | None => None
    | Some l => Some
      match l with
      | [] => Err (NonUniqueBase 0)
      | c0 :: _ =>
        let s := space_of w c0 in
        match new_loop w s l l [] with
        | Err e => Err e
        | Ok g =>
          match filter (is_base w) (uniq [] g) with
          | [b] => Ok (PHugr g b s [])
          | bs => Err (NonUniqueBase (length bs))
          end
        end
      end
    end.

  (** state_space.rs:199-211 [try_create]. *)
  Definition try_create (w : world) (s : nat) (ids : list nat) : option (result phugr) :=
    match find (fun c => negb (try_upgrade w s c)) ids with
    | Some c => Some (Err (UnknownCommitId c))
    | None => try_new w ids
    end.

  (** persistent_hugr.rs:235-265, the loop of [try_add_commits]; [l] is all of [new_commits].
      The history is returned also on error, because it is changed in place. *)
  Fixpoint add_loop (w : world) (l todo : list nat) (p : phugr) : phugr * result unit :=
    match todo with
    | [] => (p, Ok tt)
    | c :: todo =>
      if negb (space_of w c =? p_space p) then (p, Err (NonUniqueBase 2))
      else
        let (p1, curr) := children_commits w p c in
        let new := filter (fun d => memb c (parents w d)) l in
        match find_conflicting_node w c (uniq [] (curr ++ new)) with
        | Some n => (p1, Err (IncompatibleHistory c n))
        | None =>
          add_loop w l todo
            (PHugr (insert w (p_graph p1) c) (p_base p1) (p_space p1)
                   (fold_left (fun k q => invalidate_children q k) (parents w c) (p_cache p1)))
        end
    end.

  (** persistent_hugr.rs:229-268 [try_add_commits]. *)
  Definition try_add_commits (w : world) (p : phugr) (commits : list nat)
    : option (phugr * result unit) :=
    match get_ancestors_while w commits (fun c => negb (memb c (p_graph p))) with
    | None => None
    | Some l => Some (add_loop w l (rev l) p)
    end.

  (** persistent_hugr.rs:218-221 [try_add_commit]. *)
  Definition try_add_commit (w : world) (p : phugr) (c : nat) : option (phugr * result nat) :=
    match try_add_commits w p [c] with
    | None => None
    | Some (p', Ok _) => Some (p', Ok c)
    | Some (p', Err e) => Some (p', Err e)
    end.

  (** persistent_hugr.rs:421-427 [deleted_nodes]. *)
  Definition deleted_nodes (w : world) (p : phugr) (c : nat) : phugr * list nat :=
    let (p1, chs) := children_commits w p c in (p1, flat_map (deleted_of w c) chs).

  (** persistent_hugr.rs:188-203, the check at the top of [try_add_replacement], for each owner.
      The code visits the owners in hash order and reports the least common node; here the order
      is that of the nodes, which only changes what an error mentions. *)
  Fixpoint check_parents (w : world) (p : phugr) (del : list (nat * nat)) (owners : list nat)
    : phugr * result unit :=
    match owners with
    | [] => (p, Ok tt)
    | c :: owners =>
      let (p1, inv) := deleted_nodes w p c in
      match find (fun n => memb n inv) (map snd (filter (fun d => fst d =? c) del)) with
      | Some n => (p1, Err (IncompatibleHistory c n))
      | None => check_parents w p1 del owners
      end
    end.

  (** persistent_hugr.rs:184-211 [try_add_replacement]: also creates the commit in the state
      space of the history, so the world changes too. *)
  Definition try_add_replacement (w : world) (p : phugr) (del : list (nat * nat))
    : option (world * phugr * result nat) :=
    let (p1, r) := check_parents w p del (uniq [] (map fst del)) in
    match r with
    | Err e => Some (w, p1, Err e)
    | Ok _ =>
      match commit_try_new w (p_space p) del [] with
      | Err e => Some (w, p1, Err e)
      | Ok (w', c) =>
        match try_add_commit w' p1 c with
        | None => None
        | Some (p2, r) => Some (w', p2, r)
        end
      end
    end.

  (** persistent_hugr.rs:271-294 [is_valid]. *)
  Fixpoint valid_loop (w : world) (p : phugr) (todo : list nat) (found : bool)
    : phugr * result unit :=
    match todo with
    | [] => (p, if found then Ok tt else Err (NonUniqueBase 0))
    | c :: todo =>
      if is_base w c && negb (c =? p_base p) then (p, Err (NonUniqueBase 2))
      else
        let (p1, chs) := children_commits w p c in
        match find_conflicting_node w c chs with
        | Some n => (p1, Err (IncompatibleHistory c n))
        | None => valid_loop w p1 todo (found || is_base w c)
        end
    end.
  Definition is_valid (w : world) (p : phugr) : phugr * result unit :=
    valid_loop w p (uniq [] (p_graph p)) false.

  (** persistent_hugr.rs:431-440 [contains_node] and 507-516 [find_deleting_commit], for a node that is not
      an input or output of a replacement. *)
  Definition contains_node (w : world) (p : phugr) (c n : nat) : bool :=
    memb c (p_graph p) && negb (memb n (snd (deleted_nodes w p c))).
  Definition find_deleting_commit (w : world) (p : phugr) (c n : nat) : option nat :=
    find (fun d => memb n (deleted_of w c d)) (snd (children_commits w p c)).
End Insertion.
