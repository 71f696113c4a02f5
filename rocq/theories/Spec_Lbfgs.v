(** Reading a run of the L-BFGS optimizer: the update pairs. *)
From Coq Require Import List Reals Arith.
From Verif Require Import ModelLbfgs Spec_Bfgs.
Import ListNotations.
Local Open Scope R_scope.

(** The rounds of a run follow each other, from [x] to [out]. *)
Definition linked {F} (x out : list F) (rs : list (round F)) : Prop :=
  (forall m r r', nth_error rs m = Some r -> nth_error rs (S m) = Some r' ->
     r_variables r' = r_variables' r /\ r_gradient r' = r_gradient' r) /\
  match rs with r :: _ => r_variables r = x | [] => out = x end /\
  (rs <> [] -> exists r, nth_error rs (length rs - 1) = Some r /\ out = r_variables' r).

(** The change of the variables and of the gradient in a round *)
Definition pair_of (r : round R) : (nat -> R) * (nat -> R) :=
  (fun i => nth i (r_variables' r) 0 - nth i (r_variables r) 0,
   fun i => nth i (r_gradient' r) 0 - nth i (r_gradient r) 0).

(** The pairs of the (at most five) rounds before round [k], oldest first *)
Definition recent_pairs (k : nat) (rs : list (round R)) : list ((nat -> R) * (nat -> R)) :=
  map pair_of (skipn (k - 5) (firstn k rs)).

(** What the code uses instead in its first rounds *)
Definition pairs_used (k : nat) : list nat :=
  match k with
  | 0 | 1 | 2 => []
  | 3 => [0]
  | 4 => [0; 1; 2]
  | _ => seq (k - 5) 5
  end%nat.
Definition no_round : round R := Round [] [] [] 0 [] [].
Definition pairs_at (rs : list (round R)) (l : list nat) : list ((nat -> R) * (nat -> R)) :=
  map (fun m => pair_of (nth m rs no_round)) l.
Definition newest_pair (k : nat) (rs : list (round R)) : option ((nat -> R) * (nat -> R)) :=
  match k with O => None | S m => Some (pair_of (nth m rs no_round)) end.
