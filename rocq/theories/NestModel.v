(** Model of the analysis of control-flow graphs: hugr-passes/src/nest_cfgs.rs.

    Blocks are numbers.  [HashMap]s are association lists, [HashSet]s are lists; the maps built
    here are only ever looked up, so that their iteration order does not matter, except for the
    numbering of the classes (lines 492-498), which is left out: a class is identified by its tag. *)
From Coq Require Import List Bool Arith NArith Lia.
Import ListNotations.
Open Scope N_scope.

(** [CfgNodeMap] (nest_cfgs.rs:65-74): the view of a CFG.  [blocks] lists the blocks, it is only
    used to bound the loops. *)
Record cfg := Cfg { blocks : list N; succ : N -> list N; pred : N -> list N; entry : N; exit : N }.

(** [EdgeDest] (nest_cfgs.rs:165-178): an edge seen from one of its ends. *)
Inductive dest := Fwd (t : N) | Bwd (t : N).
Definition target (d : dest) : N := match d with Fwd t => t | Bwd t => t end.
Definition dest_eqb (a b : dest) : bool :=
  match a, b with Fwd x, Fwd y => x =? y | Bwd x, Bwd y => x =? y | _, _ => false end.

(** [itertools::unique] keeps the first occurrence of every item. *)
Fixpoint uniq_from {A} (eqb : A -> A -> bool) (seen l : list A) : list A :=
  match l with
  | [] => []
  | x :: l => if existsb (eqb x) seen then uniq_from eqb seen l else x :: uniq_from eqb (x :: seen) l
  end.
Definition uniq {A} (eqb : A -> A -> bool) (l : list A) : list A := uniq_from eqb [] l.

(** [all_edges] (nest_cfgs.rs:180-194). *)
Definition all_edges (g : cfg) (n : N) : list dest :=
  uniq dest_eqb
    (map Fwd (succ g n ++ (if n =? exit g then [entry g] else [])) ++ map Bwd (pred g n)).

(** [flip] (nest_cfgs.rs:196-201) and [cfg_edge] (203-208). *)
Definition flip (src : N) (d : dest) : N * dest :=
  match d with Fwd t => (t, Bwd src) | Bwd t => (t, Fwd src) end.
Definition cfg_edge (s : N) (d : dest) : N * N := match d with Fwd t => (s, t) | Bwd t => (t, s) end.

Definition edge_eqb (a b : N * N) : bool := (fst a =? fst b) && (snd a =? snd b).
Definition mem (n : N) (l : list N) : bool := existsb (N.eqb n) l.
Fixpoint get {A} (n : N) (l : list (N * A)) : option A :=
  match l with [] => None | (k, v) :: l => if n =? k then Some v else get n l end.

(** [RegionBlocksError] (nest_cfgs.rs:277-291). *)
Inductive region_error :=
| ExitEdgeNotPresent (s t : N) | EntryEdgeNotPresent (s t : N)
| EntryEdgeSourceInRegion (s : N) | UnexpectedEntryEdges (l : list N).
Inductive result (E A : Type) := Ok (a : A) | Err (e : E).
Arguments Ok {E A}. Arguments Err {E A}.

(** The search of [region_blocks] (nest_cfgs.rs:299-319): the found blocks, the last one first.
    The outer [option] is the fuel. *)
Fixpoint region_loop (g : cfg) (ex : N * N) (fuel : nat) (queue found : list N)
  : option (result region_error (list N)) :=
  match fuel with
  | O => None
  | S fuel =>
    match queue with
    | [] => Some (Ok found)
    | n :: queue =>
      if mem n found then region_loop g ex fuel queue found
      else if n =? fst ex then
        let internal := filter (fun s => negb (s =? snd ex)) (succ g n) in
        if Nat.eqb (length internal) (length (succ g n)) then
          Some (Err (ExitEdgeNotPresent (fst ex) (snd ex)))
        else region_loop g ex fuel (queue ++ internal) (n :: found)
      else region_loop g ex fuel (queue ++ succ g n) (n :: found)
    end
  end.

(** Every block puts its successors into the queue at most once. *)
Definition total (f : N -> list N) (l : list N) : nat := fold_right (fun n k => (length (f n) + k)%nat) 0%nat l.
Definition region_fuel (g : cfg) : nat := S (S (total (succ g) (blocks g))).

(** [region_blocks] (nest_cfgs.rs:294-341). *)
Definition region_blocks (g : cfg) (en ex : N * N) : option (result region_error (list N)) :=
  match region_loop g ex (region_fuel g) [snd en] [] with
  | Some (Ok found) =>
    Some (if mem (fst en) found then Err (EntryEdgeSourceInRegion (fst en))
          else
            let ext := filter (fun p => negb (mem p found)) (uniq N.eqb (pred g (snd en))) in
            let '(expected, extra) := partition (fun i => i =? fst en) ext in
            match expected with
            | [_] => match extra with [] => Ok found | _ => Err (UnexpectedEntryEdges extra) end
            | _ => Err (EntryEdgeNotPresent (fst en) (snd en))
            end)
  | r => r
  end.

(** [UndirectedDFSTree::new], part 1 (nest_cfgs.rs:361-371): the blocks from which the exit can
    be reached. *)
Fixpoint back_loop (g : cfg) (fuel : nat) (pending reach : list N) : option (list N) :=
  match fuel with
  | O => None
  | S fuel =>
    match pending with
    | [] => Some reach
    | n :: pending =>
      if mem n reach then back_loop g fuel pending reach
      else back_loop g fuel (pending ++ pred g n) (n :: reach)
    end
  end.
Definition back_fuel (g : cfg) : nat := S (S (total (pred g) (blocks g))).

(** Part 2 (nest_cfgs.rs:373-389).  The visited blocks with the edge to their parent, the last
    visited one first; [dfs_num] of a block is its position.  The stack's top is the head of the
    list: the edges of a block are pushed one after the other. *)
Fixpoint dfs_loop (g : cfg) (reach : list N) (fuel : nat) (pending : list (N * dest))
    (seen : list (N * dest)) : option (list (N * dest)) :=
  match fuel with
  | O => None
  | S fuel =>
    match pending with
    | [] => Some seen
    | (n, p) :: pending =>
      if (match get n seen with Some _ => true | None => false end) || negb (mem n reach)
      then dfs_loop g reach fuel pending seen
      else dfs_loop g reach fuel (rev (map (flip n) (all_edges g n)) ++ pending) ((n, p) :: seen)
    end
  end.
Definition dfs_fuel (g : cfg) : nat :=
  S (S (fold_right (fun n k => (length (all_edges g n) + k)%nat) 0%nat (blocks g))).

(** [UndirectedDFSTree] (nest_cfgs.rs:351-356): [dfs_num] and [dfs_parents], from which the entry
    is removed (line 388).  [None]: out of fuel, or the [unwrap] of line 388 panics. *)
Record dfs := Dfs { nums : list (N * nat); parents : list (N * dest) }.
Fixpoint numbered (seen : list (N * dest)) : list (N * nat) :=
  match seen with [] => [] | (n, _) :: l => (n, length l) :: numbered l end.
Definition undirected_dfs (g : cfg) : option dfs :=
  match back_loop g (back_fuel g) [exit g] [] with
  | None => None
  | Some reach =>
    match dfs_loop g reach (dfs_fuel g) [(entry g, Bwd (exit g))] [] with
    | None => None
    | Some seen =>
      match get (entry g) seen with
      | None => None
      | Some _ => Some (Dfs (numbered seen) (filter (fun x => negb (fst x =? entry g)) seen))
      end
    end
  end.

(** [Bracket] (nest_cfgs.rs:397-401). *)
Inductive bracket := Real (e : N * N) | Capping (d : nat) (n : N).
Definition bracket_eqb (a b : bracket) : bool :=
  match a, b with
  | Real x, Real y => edge_eqb x y
  | Capping d n, Capping d' n' => Nat.eqb d d' && (n =? n')
  | _, _ => false
  end.

(** [BracketList] (nest_cfgs.rs:410-461).  [size] is a [usize]: subtraction wraps around, as in a
    release build; the [debug_assert] of line 450 is left out. *)
Record blist := Blist { items : list bracket; size : N }.
Definition usize_max : N := 2 ^ 64 - 1.
Definition dec (n : N) : N := if n =? 0 then usize_max else n - 1.
Definition binb (b : bracket) (l : list bracket) : bool := existsb (bracket_eqb b) l.
(** [tag] (nest_cfgs.rs:423-434): the first item that is not deleted, with the size.  The items in
    front of it are dropped. *)
Fixpoint drop_deleted (deleted l : list bracket) : list bracket :=
  match l with
  | [] => []
  | b :: l => if binb b deleted then drop_deleted deleted l else b :: l
  end.
Definition tag (bs : blist) (deleted : list bracket) : option (bracket * N) * blist :=
  let l := drop_deleted deleted (items bs) in
  (match l with [] => None | b :: _ => Some (b, size bs) end, Blist l (size bs)).
(** [concat] (436-441), [push] (455-458). *)
Definition bconcat (a b : blist) : blist := Blist (items a ++ items b) (size a + size b).
Definition push (bs : blist) (b : bracket) : blist := Blist (items bs ++ [b]) (size bs + 1).
(** [delete] (443-449): [None] if the bracket was deleted before. *)
Definition bdelete (bs : blist) (deleted : list bracket) (b : bracket) : option (blist * list bracket) :=
  if binb b deleted then None else Some (Blist (items bs) (dec (size bs)), b :: deleted).

(** [EdgeClassifier] (nest_cfgs.rs:463-474). *)
Definition class := option (bracket * N).
Record state := State {
  deleted : list bracket; capping : list (nat * list N); classes : list ((N * N) * class) }.
Fixpoint get_edge {A} (e : N * N) (l : list ((N * N) * A)) : option A :=
  match l with [] => None | (k, v) :: l => if edge_eqb e k then Some v else get_edge e l end.
Definition set_class (s : state) (e : N * N) (c : class) : state :=
  State (deleted s) (capping s) ((e, c) :: filter (fun x => negb (edge_eqb e (fst x))) (classes s)).
Fixpoint get_cap (d : nat) (l : list (nat * list N)) : list N :=
  match l with [] => [] | (k, v) :: l => if Nat.eqb d k then v else get_cap d l end.
Definition take_cap (d : nat) (l : list (nat * list N)) : list (nat * list N) :=
  filter (fun x => negb (Nat.eqb d (fst x))) l.

(** The two smallest targets (nest_cfgs.rs:523-530); [None] stands for [usize::MAX]. *)
Definition lt_opt (a : option nat) (b : option nat) : bool :=
  match a, b with
  | Some a, Some b => Nat.ltb a b
  | Some _, None => true
  | None, _ => false
  end.
(** [min_dfs_target : [Option<usize>; 2]].  A child that reaches nothing returns [usize::MAX],
    here [None]: it is never smaller. *)
Definition min_step (m : option nat * option nat) (t : option nat) : option nat * option nat :=
  if lt_opt t (fst m) then (t, fst m) else if lt_opt t (snd m) then (fst m, t) else m.

Definition dnum (t : dfs) (n : N) : option nat := get n (nums t).
Definition is_parent (t : dfs) (n : N) (e : dest) : bool :=
  match get n (parents t) with Some p => dest_eqb p e | None => false end.

(** Lines 547-554: the brackets that end here are deleted, and get a class if they have none. *)
Fixpoint close_real (n : N) (down : list dest) (bs : blist) (s : state) : option (blist * state) :=
  match down with
  | [] => Some (bs, s)
  | e :: down =>
    let e := cfg_edge n e in
    match bdelete bs (deleted s) (Real e) with
    | None => None
    | Some (bs, del) =>
      let s := State del (capping s) (classes s) in
      close_real n down bs
        (match get_edge e (classes s) with Some _ => s | None => set_class s e (Some (Real e, 0)) end)
    end
  end.
(** Lines 556-558. *)
Fixpoint close_cap (d : nat) (srcs : list N) (bs : blist) (s : state) : option (blist * state) :=
  match srcs with
  | [] => Some (bs, s)
  | n :: srcs =>
    match bdelete bs (deleted s) (Capping d n) with
    | None => None
    | Some (bs, del) => close_cap d srcs bs (State del (capping s) (classes s))
    end
  end.

(** The smallest of the targets (nest_cfgs.rs:575-579). *)
Definition min_opt (a : option nat) (b : nat) : option nat :=
  Some (match a with None => b | Some a => Nat.min a b end).

Section Traverse.
  Variables (g : cfg) (t : dfs).

  Definition is_child (n : N) (e : dest) : bool := let '(c, from) := flip n e in is_parent t c from.

  (** [traverse] after the children have been visited (nest_cfgs.rs:521-580). *)
  Definition finish (n : N) (nd : nat) (others : list dest) (results : list (option nat * blist)) (s : state)
    : option ((option nat * blist) * state) :=
    let m := fold_left min_step (map fst results) (None, None) in
    let bs := fold_left bconcat (map snd results) (Blist [] 0) in
    let '(bs, s) :=
      match snd m with
      | Some d => if Nat.ltb d nd
                  then (push bs (Capping d n),
                        State (deleted s) ((d, get_cap d (capping s) ++ [n]) :: take_cap d (capping s)) (classes s))
                  else (bs, s)
      | None => (bs, s)
      end in
    let above e := match dnum t (target e) with Some d => Nat.ltb d nd | None => false end in
    let up := filter above others in
    let down := filter (fun e => negb (above e)) others in
    match close_real n down bs s with
    | None => None
    | Some (bs, s) =>
      match close_cap nd (get_cap nd (capping s)) bs s with
      | None => None
      | Some (bs, s) =>
        let s := State (deleted s) (take_cap nd (capping s)) (classes s) in
        let bs := fold_left (fun bs e => push bs (Real (cfg_edge n e)))
                            (filter (fun e => negb (is_parent t n e)) up) bs in
        let '(c, bs) := tag bs (deleted s) in
        let s := match c with Some (Real e, 1) => set_class s e c | _ => s end in
        let s := match get n (parents t) with Some p => set_class s (cfg_edge n p) c | None => s end in
        let targets := flat_map (fun e => match dnum t (target e) with Some d => [d] | None => [] end) up
                       ++ (match fst m with Some d => [d] | None => [] end) in
        Some ((fold_left min_opt targets None, bs), s)
      end
    end.

  (** [traverse] (nest_cfgs.rs:503-580). *)
  Fixpoint traverse (fuel : nat) (n : N) (s : state) : option ((option nat * blist) * state) :=
    match fuel with
    | O => None
    | S fuel =>
      match dnum t n with
      | None => None
      | Some nd =>
        let '(children, others) :=
          partition (is_child n)
            (filter (fun e => match dnum t (target e) with Some _ => true | None => false end) (all_edges g n)) in
        match fold_left (fun a c =>
                match a with
                | None => None
                | Some (rs, s) =>
                  match traverse fuel (target c) s with
                  | None => None
                  | Some (r, s) => Some (rs ++ [r], s)
                  end
                end) children (Some ([], s)) with
        | None => None
        | Some (results, s) => finish n nd others results s
        end
      end
    end.
End Traverse.

(** [get_edge_classes] (nest_cfgs.rs:481-499), up to the numbering of the classes. *)
Definition edge_classes (g : cfg) : option (list ((N * N) * class)) :=
  match undirected_dfs g with
  | None => None
  | Some t =>
    match traverse g t (S (length (nums t))) (entry g) (State [] [] []) with
    | None => None
    | Some (_, s) =>
      match capping s with
      | [] => Some (filter (fun x => negb (edge_eqb (exit g, entry g) (fst x))) (classes s))
      | _ => None
      end
    end
  end.

(** [transform_cfg_to_nested] (nest_cfgs.rs:90-151).  The mutation of the HUGR is the parameter
    [nest] ([CfgNester::nest_sese_region], lines 79-88), which may panic; [V] is the view and [vsucc]
    its successors.  [rem_edges] (lines 94-97) is one list of edges, the set of a class are its
    members with that class.  [Panic] is an [unwrap] or an [assert] that fails. *)
Inductive outcome (A : Type) := Done (a : A) | Panic | NoFuel.
Arguments Done {A}. Arguments Panic {A}. Arguments NoFuel {A}.

Definition class_eqb (a b : class) : bool :=
  match a, b with
  | Some (x, i), Some (y, j) => bracket_eqb x y && (i =? j)
  | None, None => true
  | _, _ => false
  end.

Section Transform.
  Variables (V : Type) (vsucc : V -> N -> list N) (nest : V -> N * N -> N * N -> option (V * N)).
  Variable cs : list ((N * N) * class).

  Definition of_class (c : class) (e : N * N) : bool :=
    match get_edge e cs with Some c' => class_eqb c c' | None => false end.
  Definition take_edge (e : N * N) (rem : list (N * N)) : option (list (N * N)) :=
    if existsb (edge_eqb e) rem then Some (filter (fun x => negb (edge_eqb e x)) rem) else None.

  (** The inner function [traverse] (lines 100-145): [ts_loop] is its [while] over the stack, [ts_edges]
      the [for] over the edges of a block, [ts_class] the [while] over the edges of a class. *)
  Fixpoint ts_loop (fuel : nat) (v : V) (rem : list (N * N)) (stop : option class)
      (stack seen : list N) (exits : list (N * N)) : outcome (V * list (N * N) * option (N * N)) :=
    match fuel with
    | O => NoFuel
    | S fuel =>
      match stack with
      | [] =>
        match uniq edge_eqb exits with
        | [] => Done (v, rem, None) | [e] => Done (v, rem, Some e) | _ => Panic
        end
      | n :: stack =>
        if mem n seen then ts_loop fuel v rem stop stack seen exits
        else
          let '(out, rest) :=
            partition (fun e => match stop with Some c => of_class c e | None => false end)
                      (map (fun s => (n, s)) (vsucc v n)) in
          match out with
          | _ :: _ :: _ => Panic
          | _ =>
            match ts_edges fuel v rem rest stack with
            | Done (v, rem, stack) => ts_loop fuel v rem stop stack (n :: seen) (exits ++ out)
            | Panic => Panic
            | NoFuel => NoFuel
            end
          end
      end
    end
  with ts_edges (fuel : nat) (v : V) (rem rest : list (N * N)) (stack : list N)
    : outcome (V * list (N * N) * list N) :=
    match fuel with
    | O => NoFuel
    | S fuel =>
      match rest with
      | [] => Done (v, rem, stack)
      | e :: rest =>
        match get_edge e cs with
        | None => ts_edges fuel v rem rest (snd e :: stack)
        | Some c =>
          match take_edge e rem with
          | None => Panic
          | Some rem =>
            match ts_class fuel v rem c e with
            | Done (v, rem, e) => ts_edges fuel v rem rest (snd e :: stack)
            | Panic => Panic
            | NoFuel => NoFuel
            end
          end
        end
      end
    end
  with ts_class (fuel : nat) (v : V) (rem : list (N * N)) (c : class) (e : N * N)
    : outcome (V * list (N * N) * (N * N)) :=
    match fuel with
    | O => NoFuel
    | S fuel =>
      if existsb (of_class c) rem then
        match ts_loop fuel v rem (Some c) [snd e] [] [] with
        | Done (v, rem, Some e') =>
          match take_edge e' rem with
          | None => Panic
          | Some rem =>
            if negb (snd e =? fst e') || (1 <? N.of_nat (length (vsucc v (fst e')))) then
              match nest v e e' with
              | None => Panic
              | Some (v, n) => ts_class fuel v rem c (n, snd e')
              end
            else ts_class fuel v rem c e'
          end
        | Done (_, _, None) => Panic
        | Panic => Panic
        | NoFuel => NoFuel
        end
      else Done (v, rem, e)
    end.
End Transform.

(** [transform_cfg_to_nested] on the view [v] of the graph [g] (lines 146). *)
Definition transform (V : Type) (vsucc : V -> N -> list N) (nest : V -> N * N -> N * N -> option (V * N))
    (fuel : nat) (g : cfg) (v : V) : outcome V :=
  match edge_classes g with
  | None => Panic
  | Some cs =>
    match ts_loop V vsucc nest cs fuel v (map fst cs) None [entry g] [] [] with
    | Done (v, _, _) => Done v
    | Panic => Panic
    | NoFuel => NoFuel
    end
  end.
