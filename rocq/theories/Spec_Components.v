(** Connection between points and lengths, read off the log of calls, and the
    groups that [solve] works through one by one. *)
From Coq Require Import List.
From Verif Require Import Num Outcome ModelGraph ModelSystem ModelApi Spec_Graph Spec_History.
Import ListNotations.

Section Components.
  Context {F : Type} {NF : Num F}.

  (** The points and lengths the elements given to a call are made of *)
  Definition touched (l : log F) (c : call F) : list ehandle :=
    flat_map (fun ht => parts l (fst ht)) (call_elements c).

  (** There is a chain of constraints from [p] to [q], each sharing a point or
      length with the next. *)
  Inductive joined (l : log F) : ehandle -> ehandle -> Prop :=
  | joined_refl p : joined l p p
  | joined_step p q r c k : In (c, RConstraint k) l ->
      In p (touched l c) -> In q (touched l c) -> joined l q r -> joined l p r.

  (** Solving group number [g] holds point or length [p], constraint [k]. *)
  Definition in_group (s : system F) (g : nat) (p : ehandle) : Prop :=
    holds_element (sys_graph s) g (eh_id p).
  Definition con_in_group (s : system F) (g : nat) (k : chandle) : Prop :=
    holds_constraint (sys_graph s) g (ch_id k).

  (** No constraint of the log was created on points or lengths which were
      already constrained and not yet joined: every constraint adds to at most
      one group and never brings two groups together. *)
  Fixpoint never_merges (l : log F) : Prop :=
    match l with
    | [] => True
    | (c, RConstraint k) :: l' => never_merges l' /\
        forall p q, In p (touched l' c) -> In q (touched l' c) ->
          is_constrained l' p -> is_constrained l' q -> joined l' p q
    | _ :: l' => never_merges l'
    end.
End Components.
