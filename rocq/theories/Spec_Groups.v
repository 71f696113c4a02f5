(** The groups of single-pass decomposition: what it means that they are the
    mutually dependent matched expressions, in dependency order. *)
From Coq Require Import List.
From Verif Require Import ModelMatching Spec_Scc.
Import ListNotations.

Section Groups.
  (** [exprs]: the variables of each expression; [free]: the variables that may
      change; [M]: pairs (variable, expression), a matching. *)
  Variable exprs : list (list nat).
  Variable free : list nat.
  Variable M : list (nat * nat).

  Definition mentions (e v : nat) : Prop :=
    exists vs, nth_error exprs e = Some vs /\ In v vs.
  Definition matched (e : nat) : Prop := exists v, In (v, e) M.

  (** The variables an expression settles: the one it is matched with, and the
      free ones it mentions that are matched with no expression. *)
  Definition determines (e v : nat) : Prop :=
    mentions e v /\ In v free /\ (In (v, e) M \/ forall f, ~ In (v, f) M).

  (** [f] depends on [e]: it mentions a variable that [e] settles. *)
  Definition feeds (e f : nat) : Prop :=
    matched e /\ matched f /\ exists v, determines e v /\ mentions f v.

  Record group_order (gs : list group) : Prop := {
    go_once : NoDup (concat (map group_expressions gs));
    go_all : forall e, matched e <-> exists g, In g gs /\ In e (group_expressions g);
    go_mutual : forall g e f, In g gs -> In e (group_expressions g) ->
      (In f (group_expressions g) <-> reaches feeds e f /\ reaches feeds f e);
    go_order : forall i j gi gj e f, nth_error gs i = Some gi -> nth_error gs j = Some gj ->
      In e (group_expressions gi) -> In f (group_expressions gj) -> feeds e f -> i <= j;
    go_vars : forall g v, In g gs ->
      (In v (group_free_variables g) <-> exists e, In e (group_expressions g) /\ determines e v);
    go_vonce : forall g, In g gs -> NoDup (group_free_variables g)
  }.
End Groups.
