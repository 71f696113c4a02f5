(** Model of solvi's permutation sequences and forest utilities:
    /repo/solvi/src/permutation.rs and /repo/solvi/src/utils.rs.

    Simplification: [usize] is [nat]; [usize::MAX] as "none" is [None];
    [debug_assert!] is not modelled. *)
From Coq Require Import List Arith Bool.
From Verif Require Import Outcome.
Import ListNotations.

(* ----- permutation.rs ----- *)

(** permutation.rs 27-30 *)
Record permutation_sequence := PermutationSequence {
  ps_swaps : list (nat * nat);
  ps_len : nat
}.

(** permutation.rs 47-51: the [while] loop; [stack] newest first *)
Fixpoint collect_cycle (fuel : nat) (permutation : list nat) (seen : list bool) (stack : list nat) (i : nat)
  : outcome (list bool * list nat) :=
  match fuel with
  | O => Timeout
  | S fuel =>
      let! s := oget seen i in
      if s then Done (seen, stack) else
      let! seen := oset seen i true in
      let! j := oget permutation i in
      collect_cycle fuel permutation seen (i :: stack) j
  end.

(** permutation.rs 46-58, one round.  (53-57: the swaps, from the last of the
    stack to its second, with the first as pivot; [stack] is newest first, so its
    last element is the pivot.) *)
Definition cycle_swaps (stack : list nat) : list (nat * nat) :=
  match rev stack with
  | [] => []
  | pivot :: rest => map (fun swap => (pivot, swap)) (rev rest)
  end.

Definition gather_step (permutation : list nat) (st : list bool * list (nat * nat)) (i : nat)
  : outcome (list bool * list (nat * nat)) :=
  let '(seen, swaps) := st in
  let! (seen, stack) := collect_cycle (S (length permutation)) permutation seen [] i in
  Done (seen, swaps ++ cycle_swaps stack).

(** permutation.rs 41-64 *)
Definition build_for_gather_permutation (permutation : list nat) : outcome permutation_sequence :=
  let! (_, swaps) :=
    ofold (gather_step permutation) permutation (repeat false (length permutation), []) in
  Done (PermutationSequence swaps (length permutation)).

(** [slice.swap(a, b)] *)
Definition swap_slice {A} (l : list A) (ab : nat * nat) : outcome (list A) :=
  let! x := oget l (fst ab) in
  let! y := oget l (snd ab) in
  Done (lset (lset l (fst ab) y) (snd ab) x).

(** permutation.rs 70-80 *)
Definition permute_slice {A} (p : permutation_sequence) (slice : list A) : outcome (list A) :=
  let! _ := oassert (ps_len p <=? length slice) in
  ofold swap_slice (ps_swaps p) slice.

(* ----- utils.rs ----- *)

(** utils.rs 56-62, one round: the child lists *)
Definition link_child (st : list (option nat) * list (option nat)) (np : nat * option nat)
  : outcome (list (option nat) * list (option nat)) :=
  let '(head, next) := st in
  let '(node, parent) := np in
  match parent with
  | None => Done (head, next)
  | Some parent =>
      let! h := oget head parent in
      let! next := oset next node h in
      let! head := oset head parent (Some node) in
      Done (head, next)
  end.

(** utils.rs 70-101: [dfs_from].  One unit of the budget is one child descended
    to (79-88) or one node emitted (91-99). *)
Fixpoint dfs_from (fuel : nat) (next : list (option nat)) (node : nat)
  (head : list (option nat)) (post stack : list nat) : outcome (list (option nat) * list nat) :=
  match fuel with
  | O => Timeout
  | S fuel =>
      let! h := oget head node in
      match h with
      | Some child =>
          let! n := oget next child in
          let! head := oset head node n in
          dfs_from fuel next child head post (node :: stack)
      | None =>
          let post := post ++ [node] in
          match stack with
          | parent :: stack => dfs_from fuel next parent head post stack
          | [] => Done (head, post)
          end
      end
  end.

(** utils.rs 104-108, one round *)
Definition post_order_step (fuel : nat) (next : list (option nat))
  (st : list (option nat) * list nat) (np : nat * option nat) : outcome (list (option nat) * list nat) :=
  let '(head, post) := st in
  match snd np with
  | None => dfs_from fuel next (fst np) head post []
  | Some _ => Done (head, post)
  end.

(** utils.rs 49-117 *)
Definition post_order (parents : list (option nat)) : outcome (list nat) :=
  let n := length parents in
  let nodes := combine (seq 0 n) parents in
  let! (head, next) := ofold link_child nodes (repeat None n, repeat None n) in
  let! (_, post) := ofold (post_order_step (2 * n) next) nodes (head, []) in
  Done post.

(** utils.rs 167-170: the first [while] loop; [path] newest first *)
Fixpoint walk_up (fuel : nat) (parents : list (option nat)) (levels : list nat) (path : list nat) (node : nat)
  : outcome (nat * list nat) :=
  match fuel with
  | O => Timeout
  | S fuel =>
      let! l := oget levels node in
      if negb (l =? 0) then Done (node, path) else
      let! p := oget parents node in
      match p with
      | None => Done (node, path)
      | Some p => walk_up fuel parents levels (node :: path) p
      end
  end.

(** utils.rs 180-184: the second [while] loop *)
Fixpoint walk_down (path : list nat) (level : nat) (levels : list nat) (max_level : nat)
  : outcome (list nat * nat) :=
  match path with
  | [] => Done (levels, max_level)
  | v :: path =>
      let level := level + 1 in
      let! levels := oset levels v level in
      walk_down path level levels (Nat.max max_level level)
  end.

(** utils.rs 162-185, one round *)
Definition depth_step (parents : list (option nat)) (st : list nat * nat) (node : nat)
  : outcome (list nat * nat) :=
  let '(levels, max_level) := st in
  let! (top, path) := walk_up (S (length parents)) parents levels [] node in
  let! level := oget levels top in
  walk_down path level levels max_level.

(** utils.rs 153-188 *)
Definition node_depth_levels (parents : list (option nat)) : outcome (list nat * nat) :=
  ofold (depth_step parents) (seq 0 (length parents)) (repeat 0 (length parents), 0).

(** utils.rs 206-215 *)
Fixpoint prefix_sum_from (sum : nat) (values : list nat) : list nat :=
  match values with
  | [] => []
  | v :: values => (sum + v) :: prefix_sum_from (sum + v) values
  end.
Definition prefix_sum (values : list nat) : list nat := prefix_sum_from 0 values.
