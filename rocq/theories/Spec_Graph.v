(** Connectedness through constraints. *)
From Coq Require Import List.
From Verif Require Import ModelGraph.
Import ListNotations.

(** [linked G a b]: there is a chain of constraints from [a] to [b], each
    sharing an element with the next.  [G] lists the elements of each
    constraint. *)
Inductive linked (G : list (list nat)) : nat -> nat -> Prop :=
| linked_refl a : linked G a a
| linked_step a b c es : In es G -> In a es -> In b es -> linked G b c -> linked G a c.

(** Group number [ci] of [g] holds element [e] (constraint [k]). *)
Definition holds_element (g : graph) (ci e : nat) : Prop :=
  exists c, nth_error (components g) ci = Some c /\ In e (c_elements c).
Definition holds_constraint (g : graph) (ci k : nat) : Prop :=
  exists c, nth_error (components g) ci = Some c /\ In k (c_constraints c).

(** The elements of each constraint of [g] *)
Definition hyperedges (g : graph) : list (list nat) := map incident_elements (g_constraints g).
