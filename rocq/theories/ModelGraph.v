(** Model of /repo/fiksi/src/graph.rs (the element/constraint graph and its
    connected components) and of the construction part of
    /repo/fiksi/src/analyze/graph/equations.rs (the bipartite graph between
    variables and expressions). *)
From Coq Require Import List Arith.
From Verif Require Import Outcome.
Import ListNotations.

(** [BTreeSet<u32>] as a strictly increasing list: [insert] and [extend]. *)
Fixpoint set_insert (x : nat) (s : list nat) : list nat :=
  match s with
  | [] => [x]
  | y :: t => match Nat.compare x y with
              | Lt => x :: s
              | Eq => s
              | Gt => y :: set_insert x t
              end
  end.
Definition set_extend (s xs : list nat) : list nat :=
  fold_left (fun acc x => set_insert x acc) xs s.

(** graph.rs 97-104 *)
Record gelement := GElement { dof : nat; incident_constraints : list nat }.
(** graph.rs 107-115; the incident elements (graph.rs 17-21) are the slice
    returned by [as_slice]. *)
Record gconstraint := GConstraint { valency : nat; incident_elements : list nat }.
(** graph.rs 120-124 *)
Record component := Component { c_elements : list nat; c_constraints : list nat }.
(** [ConnectedComponent::default()], which [core::mem::take] leaves behind *)
Definition empty_component : component := Component [] [].

(** graph.rs 132-143.  Component indices are [Option<NonZeroU32>] holding
    index + 1 in the code, [option nat] holding the index here. *)
Record graph := Graph {
  g_elements : list gelement;
  g_constraints : list gconstraint;
  element_component : list (option nat);
  components : list component
}.

(** graph.rs 146-153 *)
Definition graph_new : graph := Graph [] [] [] [].

(** graph.rs 155-171 *)
Definition graph_add_element (d : nat) (g : graph) : graph :=
  Graph (g_elements g ++ [GElement d []]) (g_constraints g)
        (element_component g ++ [None]) (components g).

(** graph.rs 181-191: the component with the most elements among those of
    [elements]; the first one wins ties. *)
Definition largest_component (g : graph) (elements : list nat)
  : outcome (option nat * nat) :=
  ofold (fun '(target, size) e =>
    let! oc := oget (element_component g) e in
    match oc with
    | None => Done (target, size)
    | Some ci =>
        let! c := oget (components g) ci in
        if size <? length (c_elements c)
        then Done (Some ci, length (c_elements c))
        else Done (target, size)
    end) elements (None, 0).

(** graph.rs 211-222, one iteration of the merge loop.  State: the component
    index of each element, the components, and the (taken) target component. *)
Definition merge_step (target : nat)
    (st : list (option nat) * list component * component) (e : nat)
  : outcome (list (option nat) * list component * component) :=
  let '(ec, comps, tc) := st in
  let! oc := oget ec e in
  match oc with
  | Some ci =>
      let! c := oget comps ci in
      let! ec' := oset ec e (Some target) in
      Done (ec', lset comps ci empty_component,
            Component (set_extend (c_elements tc) (c_elements c))
                      (set_extend (c_constraints tc) (c_constraints c)))
  | None =>
      let! ec' := oset ec e (Some target) in
      Done (ec', comps, Component (set_insert e (c_elements tc)) (c_constraints tc))
  end.

(** graph.rs 178-225, [merge_connected_components] *)
Definition merge_connected_components (constraint : nat) (elements : list nat)
    (g : graph) : outcome graph :=
  let! (best, _) := largest_component g elements in
  let '(target, comps) :=
    match best with
    | Some ci => (ci, components g)
    | None => (length (components g), components g ++ [empty_component])
    end in
  let! tc := oget comps target in
  let comps := lset comps target empty_component in
  let! (ec, comps', tc) :=
    ofold (merge_step target) elements (element_component g, comps, tc) in
  let tc := Component (c_elements tc) (set_insert constraint (c_constraints tc)) in
  let! comps'' := oset comps' target tc in
  Done (Graph (g_elements g) (g_constraints g) ec comps'').

(** graph.rs 227-233 *)
Definition push_incident_constraint (constraint : nat) (elements : list nat)
    (es : list gelement) : outcome (list gelement) :=
  ofold (fun es e =>
    let! ge := oget es e in
    oset es e (GElement (dof ge) (incident_constraints ge ++ [constraint])))
    elements es.

(** graph.rs 235-254 *)
Definition graph_add_constraint (val : nat) (elements : list nat) (g : graph)
  : outcome graph :=
  let constraint := length (g_constraints g) in
  let! g1 := merge_connected_components constraint elements g in
  let! es := push_incident_constraint constraint elements (g_elements g1) in
  Done (Graph es (g_constraints g1 ++ [GConstraint val elements])
              (element_component g1) (components g1)).

(** equations.rs 147-151 *)
Record eqgraph := EqGraph {
  eq_variables : list (list nat);     (* variable -> expressions *)
  eq_expressions : list (list nat)    (* expression -> variables *)
}.
(** equations.rs 160-165 *)
Definition eqgraph_new : eqgraph := EqGraph [] [].
(** equations.rs 167-170 *)
Definition insert_variables (n : nat) (g : eqgraph) : eqgraph :=
  EqGraph (eq_variables g ++ repeat [] n) (eq_expressions g).
(** equations.rs 172-179 *)
Definition insert_expression (vars : list nat) (g : eqgraph) : outcome eqgraph :=
  let id := length (eq_expressions g) in
  let! vs := ofold (fun vs v => let! es := oget vs v in oset vs v (es ++ [id]))
                   vars (eq_variables g) in
  Done (EqGraph vs (eq_expressions g ++ [vars])).
