(** Outcomes of running a piece of the program.

    [Done a]   it returned [a];
    [Panic]    it panicked: index out of bounds, failed [assert!], [unwrap] of
               [None], [unreachable!];
    [Timeout]  the model's step budget ran out before the loop ended.  A loop
               whose bound is not evident takes a budget; the program
               terminates iff some budget gives [Done] or [Panic]. *)
From Coq Require Import List NArith.
Import ListNotations.

Inductive outcome (A : Type) : Type :=
| Done (a : A)
| Panic
| Timeout.
Arguments Done {A} _.
Arguments Panic {A}.
Arguments Timeout {A}.

Definition obind {A B} (m : outcome A) (k : A -> outcome B) : outcome B :=
  match m with Done a => k a | Panic => Panic | Timeout => Timeout end.

Notation "'let!' x ':=' m 'in' k" := (obind m (fun x => k))
  (at level 200, x pattern, right associativity).

(** [slice[i]]: panics when out of bounds. *)
Definition oget {A} (l : list A) (i : nat) : outcome A :=
  match nth_error l i with Some a => Done a | None => Panic end.

(** Total list update; leaves the list unchanged when out of bounds. *)
Fixpoint lset {A} (l : list A) (i : nat) (a : A) : list A :=
  match l, i with
  | [], _ => []
  | _ :: t, O => a :: t
  | h :: t, S i' => h :: lset t i' a
  end.

(** [slice[i] = a]: panics when out of bounds. *)
Definition oset {A} (l : list A) (i : nat) (a : A) : outcome (list A) :=
  if Nat.ltb i (length l) then Done (lset l i a) else Panic.

Definition oassert (b : bool) : outcome unit := if b then Done tt else Panic.

(** [Option::unwrap] / [expect] *)
Definition ounwrap {A} (o : option A) : outcome A :=
  match o with Some a => Done a | None => Panic end.

(** A [for] loop over a list with early exit on panic or budget. *)
Fixpoint ofold {A S} (f : S -> A -> outcome S) (l : list A) (s : S) : outcome S :=
  match l with
  | [] => Done s
  | a :: t => let! s' := f s a in ofold f t s'
  end.

Fixpoint omap {A B} (f : A -> outcome B) (l : list A) : outcome (list B) :=
  match l with
  | [] => Done []
  | a :: t => let! b := f a in let! bs := omap f t in Done (b :: bs)
  end.

(** [usize::try_into::<u32>().expect(..)] *)
Definition to_u32 (n : nat) : outcome nat :=
  if N.ltb (N.of_nat n) (2 ^ 32)%N then Done n else Panic.
