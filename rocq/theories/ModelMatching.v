(** Model of /repo/fiksi/src/analyze/graph/equations.rs, the decomposition
    part: Hopcroft-Karp matching of variables to expressions, Tarjan-Pearce
    strongly connected components, and the sequence of groups they induce. *)
From Coq Require Import List Arith NArith.
From Verif Require Import Outcome ModelGraph.
Import ListNotations.

(** [indexmap::IndexMap] as an association list in insertion order; inserting
    an existing key replaces its value in place. *)
Definition amap (V : Type) : Type := list (nat * V).
Fixpoint aget {V} (m : amap V) (k : nat) : option V :=
  match m with
  | [] => None
  | (k', v) :: t => if Nat.eqb k k' then Some v else aget t k
  end.
Fixpoint aset {V} (m : amap V) (k : nat) (v : V) : amap V :=
  match m with
  | [] => [(k, v)]
  | (k', v') :: t => if Nat.eqb k k' then (k, v) :: t else (k', v') :: aset t k v
  end.
Definition amem {V} (m : amap V) (k : nat) : bool :=
  match aget m k with Some _ => true | None => false end.

(** equations.rs 227-286: the expression graph restricted to the free
    variables, as the two neighbour functions and the vertex list of side A. *)
Record bigraph := BiGraph {
  vertices_a : list nat;
  neighbors_of_a : nat -> option (list nat);
  neighbors_of_b : nat -> option (list nat)
}.
Definition masked (g : eqgraph) (free_variables : list nat) : bigraph :=
  BiGraph free_variables
          (fun v => nth_error (eq_variables g) v)
          (fun e => option_map (filter (fun v => existsb (Nat.eqb v) free_variables))
                               (nth_error (eq_expressions g) e)).

(** equations.rs 96-101 *)
Record matching := Matching { a_to_b : amap nat; b_to_a : amap nat }.
Definition matching_new : matching := Matching [] [].
(** equations.rs 123-140 *)
Definition is_a_matched (m : matching) (a : nat) : bool := amem (a_to_b m) a.
Definition get_matched_for_b (m : matching) (b : nat) : option nat := aget (b_to_a m) b.
(** equations.rs 384-385 and 393-394 *)
Definition match_pair (m : matching) (a b : nat) : matching :=
  Matching (aset (a_to_b m) a b) (aset (b_to_a m) b a).

(** Distances: [None] is the code's [u32::MAX] ("infinite").  The code's
    saturating increment cannot saturate below 2^32 vertices. *)
Notation dist := (option nat).
Definition dist_succ (d : dist) : dist := option_map S d.
Definition dist_eqb (d e : dist) : bool :=
  match d, e with
  | None, None => true
  | Some x, Some y => Nat.eqb x y
  | _, _ => false
  end.
(** [d >= e] *)
Definition dist_geb (d e : dist) : bool :=
  match d, e with
  | None, _ => true
  | Some _, None => false
  | Some x, Some y => Nat.leb y x
  end.

(** equations.rs 351-365: the loop over the neighbours of one vertex *)
Definition bfs_neighbors (m : matching) (new_dist : dist) (bs : list nat)
    (st : amap dist * dist * list nat) : outcome (amap dist * dist * list nat) :=
  ofold (fun '(distance, dummy, queue) b =>
    match get_matched_for_b m b with
    | None => Done (distance, match dummy with None => new_dist | Some _ => dummy end, queue)
    | Some matched_a =>
        let! d := ounwrap (aget distance matched_a) in
        match d with
        | None => Done (aset distance matched_a new_dist, dummy, queue ++ [matched_a])
        | Some _ => Done (distance, dummy, queue)
        end
    end) bs st.

(** equations.rs 343-366 *)
Fixpoint bfs_loop (fuel : nat) (g : bigraph) (m : matching)
    (st : amap dist * dist * list nat) : outcome (amap dist * dist) :=
  match fuel with
  | O => Timeout
  | S fuel =>
    let '(distance, dummy, queue) := st in
    match queue with
    | [] => Done (distance, dummy)
    | a :: queue =>
        let! a_distance := ounwrap (aget distance a) in
        if dist_geb a_distance dummy then bfs_loop fuel g m (distance, dummy, queue)
        else
          let! bs := ounwrap (neighbors_of_a g a) in
          let! st' := bfs_neighbors m (dist_succ a_distance) bs (distance, dummy, queue) in
          bfs_loop fuel g m st'
    end
  end.

(** equations.rs 325-369 *)
Definition bfs (fuel : nat) (g : bigraph) (m : matching) (distance : amap dist)
  : outcome (amap dist * dist) :=
  let distance := map (fun '(a, _) => (a, if is_a_matched m a then None else Some 0)) distance in
  let queue := filter (fun a => negb (is_a_matched m a)) (map fst distance) in
  bfs_loop fuel g m (distance, None, queue).

(** equations.rs 371-403.  Returns the matching, the distances and whether an
    augmenting path was found.  The recursion is on [fuel]. *)
Fixpoint dfs (fuel : nat) (g : bigraph) (dummy : dist) (m : matching)
    (distance : amap dist) (a : nat) : outcome (matching * amap dist * bool) :=
  match fuel with
  | O => Timeout
  | S fuel =>
    let! da := ounwrap (aget distance a) in
    let plus_one := dist_succ da in
    let! bs := ounwrap (neighbors_of_a g a) in
    (fix loop (bs : list nat) (m : matching) (distance : amap dist) :=
       match bs with
       | [] => Done (m, aset distance a None, false)
       | b :: bs =>
           match get_matched_for_b m b with
           | None =>
               if dist_eqb dummy plus_one then Done (match_pair m a b, distance, true)
               else loop bs m distance
           | Some matched_a =>
               let! d := ounwrap (aget distance matched_a) in
               if dist_eqb d plus_one then
                 let! (m', distance', found) := dfs fuel g dummy m distance matched_a in
                 if found then Done (match_pair m' a b, distance', true)
                 else loop bs m' distance'
               else loop bs m distance
           end
       end) bs m distance
  end.

(** equations.rs 315-319: one phase *)
Definition phase (fuel : nat) (g : bigraph) (dummy : dist)
    (m : matching) (distance : amap dist) : outcome (matching * amap dist) :=
  ofold (fun '(m, distance) a =>
    if is_a_matched m a then Done (m, distance)
    else let! (m', distance', _) := dfs fuel g dummy m distance a in
         Done (m', distance')) (vertices_a g) (m, distance).

(** equations.rs 314-320: phases until the search finds no augmenting path *)
Fixpoint phases (n fuel : nat) (g : bigraph) (m : matching) (distance : amap dist)
  : outcome matching :=
  match n with
  | O => Timeout
  | S n =>
    let! (distance', dummy) := bfs fuel g m distance in
    match dummy with
    | None => Done m
    | Some _ =>
        let! (m', distance'') := phase fuel g dummy m distance' in
        phases n fuel g m' distance''
    end
  end.

(** equations.rs 301-323, with a budget that is proved sufficient: each phase
    matches at least one more vertex, and each search enqueues a vertex once. *)
Definition find_maximum_matching (g : bigraph) : outcome matching :=
  let n := length (vertices_a g) in
  phases (S n) (S (S n)) g matching_new (map (fun a => (a, None)) (vertices_a g)).

(** equations.rs 427-448: the expressions reachable from [vertex] in one step *)
Definition matched_neighbors (g : bigraph) (m : matching) (vertex : nat)
  : outcome (list nat) :=
  let! matched_a := ounwrap (aget (b_to_a m) vertex) in
  let! vars := ounwrap (neighbors_of_b g vertex) in
  let! ns := omap (fun a => ounwrap (neighbors_of_a g a))
      (filter (fun a => Nat.eqb a matched_a || negb (is_a_matched m a))%bool vars) in
  Done (filter (fun b => negb (Nat.eqb b vertex) && amem (b_to_a m) b)%bool (concat ns)).

(** equations.rs 508-567, the state threaded through [visit]: [index], [c],
    [root_index], the stack (top first) and the components found so far (last
    one first).  [root_index] is a [HashMap] that is only queried and inserted
    into. *)
Record tstate := TState {
  t_index : N;
  t_c : N;
  t_root : amap N;
  t_stack : list nat;
  t_sccs : list (list nat)
}.

(** equations.rs 540-551: pop the stack down to the first vertex whose root
    index is smaller than the component's. *)
Fixpoint pop_scc (vi c : N) (stack scc : list nat) (root : amap N) (index : N)
  : outcome (list nat * list nat * amap N * N) :=
  match stack with
  | [] => Done ([], scc, root, index)
  | top :: rest =>
      let! rt := ounwrap (aget root top) in
      if (rt <? vi)%N then Done (stack, scc, root, index)
      else pop_scc vi c rest (scc ++ [top]) (aset root top c) (index - 1)%N
  end.

Definition wrapping_pred (c : N) : N := ((c + (2 ^ 32 - 1)) mod 2 ^ 32)%N.

(** equations.rs 508-567.  [neighbors] is [graph.neighbors(..).unwrap()]. *)
Fixpoint visit (fuel : nat) (neighbors : nat -> outcome (list nat)) (vertex : nat)
    (st : tstate) : outcome tstate :=
  match fuel with
  | O => Timeout
  | S fuel =>
    let vi := t_index st in
    let st := TState (vi + 1) (t_c st) (aset (t_root st) vertex vi) (t_stack st) (t_sccs st) in
    let! ns := neighbors vertex in
    let! (vi, root, st) :=
      ofold (fun '(vi, root, st) neighbor =>
        let! st := (match aget (t_root st) neighbor with
                    | None => visit fuel neighbors neighbor st
                    | Some _ => Done st
                    end) in
        let! ni := ounwrap (aget (t_root st) neighbor) in
        if (ni <? vi)%N
        then Done (ni, false,
                   TState (t_index st) (t_c st) (aset (t_root st) vertex ni)
                          (t_stack st) (t_sccs st))
        else Done (vi, root, st)) ns (vi, true, st) in
    if root : bool then
      let! (stack, scc, rooti, index) :=
        pop_scc vi (t_c st) (t_stack st) [vertex] (t_root st) (t_index st - 1)%N in
      Done (TState index (wrapping_pred (t_c st)) (aset rooti vertex (t_c st))
                   stack (scc :: t_sccs st))
    else
      Done (TState (t_index st) (t_c st) (t_root st) (vertex :: t_stack st) (t_sccs st))
  end.

(** equations.rs 470-506; the components in the order the code pushes them *)
Definition tarjan_pearce (vertices : list nat) (neighbors : nat -> outcome (list nat))
  : outcome (list (list nat)) :=
  let! n := to_u32 (length vertices) in
  let st0 := TState 1 (wrapping_pred (N.of_nat n)) [] [] [] in
  let! st := ofold (fun st v =>
      match aget (t_root st) v with
      | None => visit (S n) neighbors v st
      | Some _ => Done st
      end) vertices st0 in
  Done (rev (t_sccs st)).

(** equations.rs 154-157 *)
Record group := Group { group_free_variables : list nat; group_expressions : list nat }.

(** equations.rs 201-218: the variables one group may change.  The code
    collects them in a [HashSet] and iterates over it, so their order is
    unspecified: [order] is any reordering. *)
Definition group_of (g : eqgraph) (free_variables : list nat) (m : matching)
    (order : list nat -> list nat) (expressions : list nat) : outcome group :=
  let! vs := ofold (fun acc e =>
      let! matched_var := ounwrap (get_matched_for_b m e) in
      let! vars := oget (eq_expressions g) e in
      Done (set_extend acc
        (filter (fun v => Nat.eqb v matched_var
                          || (negb (is_a_matched m v)
                              && existsb (Nat.eqb v) free_variables))%bool vars)))
    expressions [] in
  Done (Group (order vs) expressions).

(** equations.rs 186-220, [find_strongly_connected_expressions] *)
Definition find_strongly_connected_expressions (g : eqgraph)
    (free_variables : list nat) (order : list nat -> list nat)
  : outcome (list group) :=
  let bg := masked g free_variables in
  let! m := find_maximum_matching bg in
  let! sccs := tarjan_pearce (map fst (b_to_a m)) (matched_neighbors bg m) in
  omap (group_of g free_variables m order) (rev sccs).
