(** Comparison and hashing of handles: what a handle does as a key of an
    ordered or a hashed collection. *)
From Coq Require Import List Arith NArith.
From Verif Require Import Num Outcome ModelExpr ModelSystem.
Import ListNotations.

(** The order of pairs of [u32] in [core]: first components decide, second
    components break ties. *)
Definition pair_cmp (a b : N * nat) : comparison :=
  match N.compare (fst a) (fst b) with
  | Eq => Nat.compare (snd a) (snd b)
  | c => c
  end.

(** elements/mod.rs 208-217, 234-244: [Ord] of [ElementHandle] and of
    [AnyElementHandle] (the tag is not compared; [PartialOrd] is [Ord]) *)
Definition ehandle_cmp (a b : ehandle) : comparison :=
  pair_cmp (eh_system a, eh_id a) (eh_system b, eh_id b).
(** constraints/mod.rs 247-256, 273-283, likewise *)
Definition chandle_cmp (a b : chandle) : comparison :=
  pair_cmp (ch_system a, ch_id a) (ch_system b, ch_id b).

(** elements/mod.rs 219-224, 246-252: the words [Hash] gives the hasher, in
    order.  The hasher is any function of those words. *)
Definition ehandle_words (h : ehandle) : list N := [eh_system h; N.of_nat (eh_id h)].
(** constraints/mod.rs 258-263, 285-291, likewise *)
Definition chandle_words (h : chandle) : list N := [ch_system h; N.of_nat (ch_id h)].
