(** Model of /repo/solvi/src/decomposition/sparse/cholesky.rs.

    Simplification: [usize] is [nat]; [usize::MAX] as "none" is [None];
    [debug_assert!] is not modelled. *)
From Coq Require Import List Arith Bool ZArith.
From Verif Require Import Outcome ModelSparse ModelForest.
Import ListNotations.
Local Open Scope nat_scope.

(** cholesky.rs 61-74: the [while] loop; [(parents, ancestors)] *)
Fixpoint climb (fuel col : nat) (st : list (option nat) * list (option nat)) (k : option nat)
  : outcome (list (option nat) * list (option nat)) :=
  match fuel with
  | O => Timeout
  | S fuel =>
      match k with
      | None => Done st
      | Some k =>
          if col <=? k then Done st else
          let '(parents, ancestors) := st in
          let! col_next := oget ancestors k in
          let! ancestors := oset ancestors k (Some col) in
          let! parents :=
            match col_next with
            | None => oset parents k (Some col)
            | Some _ => Done parents
            end in
          climb fuel col (parents, ancestors) col_next
      end
  end.

(** cholesky.rs 54-80, one round; [((parents, ancestors), prev_col)] *)
Definition etree_row (symmetric : bool) (n col : nat)
  (st : list (option nat) * list (option nat) * list (option nat)) (row : nat)
  : outcome (list (option nat) * list (option nat) * list (option nat)) :=
  let '(pa, prev_col) := st in
  let! k := if symmetric then Done (Some row) else oget prev_col row in
  let! pa := climb (S n) col pa k in
  let! prev_col := if symmetric then Done prev_col else oset prev_col row (Some col) in
  Done (pa, prev_col).

(** cholesky.rs 51-81, one round *)
Definition etree_column (symmetric : bool) (a : structure)
  (st : list (option nat) * list (option nat) * list (option nat)) (col : nat)
  : outcome (list (option nat) * list (option nat) * list (option nat)) :=
  let! rows := index_column a col in
  ofold (etree_row symmetric (s_ncols a) col) rows st.

(** cholesky.rs 31-84 *)
Definition elimination_tree (symmetric : bool) (a : structure) : outcome (list (option nat)) :=
  let n := s_ncols a in
  let prev_col := if symmetric then [] else repeat None (s_nrows a) in
  let! st := ofold (etree_column symmetric a) (seq 0 n) (repeat None n, repeat None n, prev_col) in
  Done (fst (fst st)).

(* ----- CholeskyCounts::build ----- *)

(** [slice[i] = f(slice[i])] *)
Definition oupdate {A} (l : list A) (i : nat) (f : A -> A) : outcome (list A) :=
  let! a := oget l i in oset l i (f a).

(** [a - b] on [usize]: here an underflow is a panic, as in a debug build (a
    release build wraps); the theorems show that there is none. *)
Definition osub (a b : nat) : outcome nat := if b <=? a then Done (a - b) else Panic.

(** [for (place, &j) in l.iter().enumerate()] *)
Definition enumerate {A} (l : list A) : list (nat * A) := combine (seq 0 (length l)) l.

(** cholesky.rs 160-163 *)
Definition places_of (n : nat) (postorder : list nat) : outcome (list nat) :=
  ofold (fun places '(place, col) => oset places col place) (enumerate postorder) (repeat 0 n).

(** cholesky.rs 169-175 *)
Definition subtree_sizes (n : nat) (parents : list (option nat)) (postorder : list nat) : outcome (list nat) :=
  ofold (fun size j =>
    let! p := oget parents j in
    match p with
    | None => Done size
    | Some p => let! x := oget size j in oupdate size p (fun y => y + x)
    end) postorder (repeat 1 n).

(** cholesky.rs 179-191 (without the check of debug builds) *)
Definition first_descendants_of (n : nat) (size postorder : list nat) : outcome (list nat) :=
  ofold (fun first '(place, j) =>
    let! x := oget size j in
    let! at_ := osub (place + 1) x in
    let! d := oget postorder at_ in
    oset first j d) (enumerate postorder) (repeat 0 n).

(** cholesky.rs 195-203 *)
Definition first_columns_of (a : structure) (postorder : list nat) : outcome (list (option nat)) :=
  ofold (fun first j =>
    let! rows := index_column a j in
    ofold (fun first i =>
      let! f := oget first i in
      match f with None => oset first i (Some j) | Some _ => Done first end) rows first)
    postorder (repeat None (s_nrows a)).

(** cholesky.rs 207-221.  [places[f]] with [f == usize::MAX] is out of bounds. *)
Definition higher_adjacency (a : structure) (postorder places : list nat) (first_columns : list (option nat))
  : outcome (list (list nat)) :=
  ofold (fun hadj '(place, j) =>
    let! rows := index_column a j in
    ofold (fun hadj i =>
      let! f := oget first_columns i in
      let! f := ounwrap f in
      let! pf := oget places f in
      if pf <? place then oupdate hadj f (fun us => us ++ [j]) else Done hadj) rows hadj)
    (enumerate postorder) (repeat [] (s_ncols a)).

(** cholesky.rs 258-263: find with path compression *)
Fixpoint dsu_find (fuel : nat) (dsu : list nat) (x : nat) : outcome (list nat * nat) :=
  match fuel with
  | O => Timeout
  | S fuel =>
      let! p := oget dsu x in
      if p =? x then Done (dsu, x)
      else
        let! (dsu, r) := dsu_find fuel dsu p in
        let! dsu := oset dsu x r in
        Done (dsu, r)
  end.

(** The variables of the loop 267-307 *)
Record count_state := CountState {
  n_weights : list Z;
  n_counts : list nat;
  n_prev_nbr : list (option nat);
  n_prev_f : list (option nat);
  n_dsu : list nat
}.

(** cholesky.rs 282-300, one neighbour [u] of [j]; [first_place] is the place of
    [j]'s first descendant *)
Definition count_neighbor (levels : list nat) (j place first_place : nat) (st : count_state) (u : nat)
  : outcome count_state :=
  let! nbr := oget (n_prev_nbr st) u in
  let! st :=
    if match nbr with None => true | Some p => p <? first_place end then
      let! weights := oupdate (n_weights st) j (fun w => w + 1)%Z in
      let! leaf := oget (n_prev_f st) u in
      let! lj := oget levels j in
      let! (weights, counts, dsu) :=
        match leaf with
        | Some leaf =>
            let! (dsu, q) := dsu_find (S (length (n_dsu st))) (n_dsu st) leaf in
            let! lq := oget levels q in
            let! d := osub lj lq in
            let! counts := oupdate (n_counts st) u (fun c => c + d) in
            let! weights := oupdate weights q (fun w => w - 1)%Z in
            Done (weights, counts, dsu)
        | None =>
            let! lu := oget levels u in
            let! d := osub lj lu in
            let! counts := oupdate (n_counts st) u (fun c => c + d) in
            Done (weights, counts, n_dsu st)
        end in
      let! prev_f := oset (n_prev_f st) u (Some j) in
      Done (CountState weights counts (n_prev_nbr st) prev_f dsu)
    else Done st in
  let! nbrs := oset (n_prev_nbr st) u (Some place) in
  Done (CountState (n_weights st) (n_counts st) nbrs (n_prev_f st) (n_dsu st)).

(** cholesky.rs 267-307, one column *)
Definition count_column (parents : list (option nat)) (levels places first_descendants : list nat)
  (hadj : list (list nat)) (st : count_state) (pj : nat * nat) : outcome count_state :=
  let '(place, j) := pj in
  let! p := oget parents j in
  let! weights :=
    match p with
    | Some p => oupdate (n_weights st) p (fun w => w - 1)%Z
    | None => Done (n_weights st)
    end in
  let st := CountState weights (n_counts st) (n_prev_nbr st) (n_prev_f st) (n_dsu st) in
  let! d := oget first_descendants j in
  let! first_place := oget places d in
  let! us := oget hadj j in
  let! st := ofold (count_neighbor levels j place first_place) us st in
  match p with
  | Some p =>
      let! dsu := oset (n_dsu st) j p in
      Done (CountState (n_weights st) (n_counts st) (n_prev_nbr st) (n_prev_f st) dsu)
  | None => Done st
  end.

(** cholesky.rs 310-315 *)
Definition accumulate_weights (parents : list (option nat)) (weights : list Z) : outcome (list Z) :=
  ofold (fun weights j =>
    let! p := oget parents j in
    match p with
    | None => Done weights
    | Some p => let! w := oget weights j in oupdate weights p (fun x => x + w)%Z
    end) (seq 0 (length parents)) weights.

(** cholesky.rs 97-105 *)
Record cholesky_counts := CholeskyCounts {
  cc_row_counts : list nat;
  cc_col_counts : list nat;
  cc_levels : list nat;
  cc_first_columns : list (option nat)
}.

(** cholesky.rs 149-332.  (317-325: a negative count would wrap in the code; it
    is zero here.) *)
Definition cholesky_counts_build (a : structure) (parents : list (option nat)) (postorder : list nat)
  : outcome cholesky_counts :=
  let n := s_ncols a in
  let! _ := oassert (n =? length parents) in
  let! _ := oassert (n =? length postorder) in
  let! (levels, _) := node_depth_levels parents in
  let! places := places_of n postorder in
  let! size := subtree_sizes n parents postorder in
  let! first_descendants := first_descendants_of n size postorder in
  let! first_columns := first_columns_of a postorder in
  let! hadj := higher_adjacency a postorder places first_columns in
  let weights := map (fun s => if s =? 1 then 1%Z else 0%Z) size in
  let! st := ofold (count_column parents levels places first_descendants hadj) (enumerate postorder)
               (CountState weights (repeat 1 n) (repeat None n) (repeat None n) (seq 0 n)) in
  let! weights := accumulate_weights parents (n_weights st) in
  Done (CholeskyCounts (map Z.to_nat weights) (n_counts st) levels first_columns).

(* ----- CholeskyStructure::build ----- *)

(** The queues of rows, one for each column (381-384) *)
Record row_queues := RowQueues {
  q_next : list (option nat);
  q_head : list (option nat);
  q_tail : list (option nat);
  q_count : list Z
}.

(** cholesky.rs 386-402, one row *)
Definition enqueue_row (first_columns : list (option nat)) (q : row_queues) (i : nat) : outcome row_queues :=
  let! k := oget first_columns i in
  match k with
  | None => Done q
  | Some k =>
      let! count := oget (q_count q) k in
      let! tail := if (count =? 0)%Z then oset (q_tail q) k (Some i) else Done (q_tail q) in
      let! counts := oset (q_count q) k (count + 1)%Z in
      let! h := oget (q_head q) k in
      let! next := oset (q_next q) i h in
      let! head := oset (q_head q) k (Some i) in
      Done (RowQueues next head tail counts)
  end.

(** cholesky.rs 404-434, one column; [(m_fictitious, row_permutation, queues)] *)
Definition assign_row (parents : list (option nat)) (st : nat * list (option nat) * row_queues) (k : nat)
  : outcome (nat * list (option nat) * row_queues) :=
  let '(fictitious, perm, q) := st in
  let! h := oget (q_head q) k in
  let '(i, fictitious) := match h with None => (fictitious, S fictitious) | Some i => (i, fictitious) end in
  let! perm := oset perm i (Some k) in
  let! count := oget (q_count q) k in
  let count := (count - 1)%Z in
  let! counts := oset (q_count q) k count in
  let q := RowQueues (q_next q) (q_head q) (q_tail q) counts in
  if (count <=? 0)%Z then Done (fictitious, perm, q) else
  let! p := oget parents k in
  match p with
  | None => Done (fictitious, perm, q)
  | Some p =>
      let! cp := oget (q_count q) p in
      let! tk := oget (q_tail q) k in
      let! tail := if (cp =? 0)%Z then oset (q_tail q) p tk else Done (q_tail q) in
      let! tk := oget tail k in
      let! tk := ounwrap tk in
      let! hp := oget (q_head q) p in
      let! next := oset (q_next q) tk hp in
      let! ni := oget next i in
      let! head := oset (q_head q) p ni in
      let! counts := oset (q_count q) p (cp + count)%Z in
      Done (fictitious, perm, RowQueues next head tail counts)
  end.

(** cholesky.rs 436-442, one row; [(k, row_permutation)] *)
Definition assign_rest (st : nat * list (option nat)) (i : nat) : outcome (nat * list (option nat)) :=
  let '(k, perm) := st in
  let! p := oget perm i in
  match p with
  | None => let! perm := oset perm i (Some k) in Done (S k, perm)
  | Some _ => Done (k, perm)
  end.

(** cholesky.rs 377-443: the row permutation *)
Definition permute_rows (m n : nat) (parents first_columns : list (option nat)) : outcome (list (option nat)) :=
  let! q := ofold (enqueue_row first_columns) (rev (seq 0 m))
              (RowQueues (repeat (Some 0) m) (repeat None n) (repeat None n) (repeat 0%Z n)) in
  let! (_, perm, _) := ofold (assign_row parents) (seq 0 n) (m, repeat None (m + n), q) in
  let! (_, perm) := ofold assign_rest (seq 0 m) (n, perm) in
  Done perm.

(** cholesky.rs 459-463: the [while] loop; [stack] newest first *)
Fixpoint climb_path (fuel : nat) (parents : list (option nat)) (j : nat) (k : option nat) (stack marker : list nat)
  : outcome (list nat * list nat) :=
  match fuel with
  | O => Timeout
  | S fuel =>
      match k with
      | None => Done (stack, marker)
      | Some k =>
          if j <=? k then Done (stack, marker) else
          let! x := oget marker k in
          if x =? j + 1 then Done (stack, marker) else
          let! marker := oset marker k (j + 1) in
          let! p := oget parents k in
          climb_path fuel parents j p (k :: stack) marker
      end
  end.

(** cholesky.rs 457-470, one row of the column; [(stack, marker, h_row_indices[j])] *)
Definition visit_row (parents first_columns row_permutation : list (option nat)) (j : nat)
  (st : list nat * list nat * list nat) (i : nat) : outcome (list nat * list nat * list nat) :=
  let '(stack, marker, hj) := st in
  let! k := oget first_columns i in
  let! (stack, marker) := climb_path (S (length parents)) parents j k stack marker in
  let! i := oget row_permutation i in
  let! i := ounwrap i in
  if j <? i then
    let! x := oget marker i in
    if x <? j + 1 then
      let! marker := oset marker i (j + 1) in
      Done (stack, marker, hj ++ [i])
    else Done (stack, marker, hj)
  else Done (stack, marker, hj).

(** cholesky.rs 486-491, one row of the child; [(marker, h_row_indices[j])] *)
Definition carry_row (j : nat) (st : list nat * list nat) (row : nat) : outcome (list nat * list nat) :=
  let '(marker, hj) := st in
  let! x := oget marker row in
  if x <? j + 1 then
    let! marker := oset marker row (j + 1) in
    Done (marker, hj ++ [row])
  else Done (marker, hj).

(** cholesky.rs 477-493: popping the stack; [hs]: [h_row_indices[..j]] *)
Definition pop_column (parents : list (option nat)) (hs : list (list nat)) (j : nat)
  (st : list nat * nat * list nat * list nat) (k : nat) : outcome (list nat * nat * list nat * list nat) :=
  let '(row_indices, idx, marker, hj) := st in
  let! row_indices := oset row_indices idx k in
  let! p := oget parents k in
  if match p with Some p => p =? j | None => false end then
    let! h := oget hs k in
    let! (marker, hj) := ofold (carry_row j) h (marker, hj) in
    Done (row_indices, idx + 1, marker, hj)
  else Done (row_indices, idx + 1, marker, hj).

(** [sort_unstable] of a slice of [usize]: there is only one sorted arrangement *)
Fixpoint insert_nat (x : nat) (l : list nat) : list nat :=
  match l with
  | [] => [x]
  | y :: l => if x <=? y then x :: y :: l else y :: insert_nat x l
  end.
Definition sort_nats (l : list nat) : list nat := fold_right insert_nat [] l.

(** [slice[a..b].sort_unstable()] *)
Definition sort_range (l : list nat) (a b : nat) : outcome (list nat) :=
  let! s := oslice l a b in
  Done (firstn a l ++ sort_nats s ++ skipn b l).

(** cholesky.rs 453-502, one column; [(row_indices, marker, start, h_row_indices)],
    the last with the columns so far *)
Definition structure_column (a : structure) (parents first_columns row_permutation : list (option nat))
  (col_counts : list nat) (st : list nat * list nat * nat * list (list nat)) (j : nat)
  : outcome (list nat * list nat * nat * list (list nat)) :=
  let '(row_indices, marker, start, hs) := st in
  let! marker := oset marker j (j + 1) in
  let! rows := index_column a j in
  let! (stack, marker, hj) := ofold (visit_row parents first_columns row_permutation j) rows ([], marker, [j]) in
  let! (row_indices, idx, marker, hj) := ofold (pop_column parents hs j) stack (row_indices, start, marker, hj) in
  let! row_indices := sort_range row_indices start idx in
  let! row_indices := oset row_indices idx j in
  let! c := oget col_counts j in
  Done (row_indices, marker, start + c, hs ++ [hj]).

(** cholesky.rs 521-530 *)
Definition roots_of (n : nat) (parents : list (option nat)) (postorder : list nat) : outcome (list nat) :=
  ofold (fun root_of j =>
    let! p := oget parents j in
    match p with
    | None => oset root_of j j
    | Some p => let! r := oget root_of p in oset root_of j r
    end) (rev postorder) (repeat 0 n).

(** cholesky.rs 532-551, one row: only [row_root] is used afterwards, but the
    rest may panic *)
Definition row_root_step (m : nat) (levels root_of : list nat) (first_columns row_permutation : list (option nat))
  (row_root : list nat) (i : nat) : outcome (list nat) :=
  let! p := oget row_permutation i in
  let! p := Done (match p with None => m | Some p => p end) in
  if m <=? p then Done row_root else
  let! f := oget first_columns i in
  match f with
  | None => Done row_root
  | Some f =>
      let! r := oget root_of f in
      let r := if p <? r then p else r in
      let! row_root := oset row_root i r in
      let! lf := oget levels f in
      let! lr := oget levels r in
      let! _ := osub (1 + lf) lr in
      Done row_root
  end.

(** cholesky.rs 506-512 and 556-567: nothing computed here is used afterwards,
    but an index may be out of bounds.  ([row_roots] never holds [usize::MAX].) *)
Definition householder_weights (m n : nat) (parents first_columns : list (option nat)) (row_roots : list nat)
  : outcome (list Z) :=
  let! first_in_rows := ofold (fun rows i =>
    let! j := oget first_columns i in
    match j with None => Done rows | Some j => oupdate rows j (fun l => l ++ [i]) end)
    (seq 0 m) (repeat [] n) in
  ofold (fun weights j =>
    let! rows := oget first_in_rows j in
    ofold (fun weights i =>
      let! weights := oupdate weights j (fun w => w + 1)%Z in
      let! r := oget row_roots i in
      let! p := oget parents r in
      match p with None => Done weights | Some p => oupdate weights p (fun w => w - 1)%Z end) rows weights)
    (seq 0 n) (repeat 0%Z n).

(** cholesky.rs 122-137 *)
Record cholesky_structure := CholeskyStructure {
  cs_l_structure : structure;
  cs_row_permutation : list (option nat);
  cs_h_structure : structure
}.

(** [core::iter::once(0).chain(utils::prefix_sum(..))] *)
Definition pointers_of (counts : list nat) : list nat := 0 :: prefix_sum counts.

(** cholesky.rs 359-594 *)
Definition cholesky_structure_build (a : structure) (parents : list (option nat)) (postorder : list nat)
  (counts : cholesky_counts) : outcome cholesky_structure :=
  let m := s_nrows a in
  let n := s_ncols a in
  let first_columns := cc_first_columns counts in
  let! perm := permute_rows m n parents first_columns in
  let! (row_indices, _, _, hs) :=
    ofold (structure_column a parents first_columns perm (cc_col_counts counts)) (seq 0 n)
      (repeat 0 (list_sum (cc_col_counts counts)), repeat 0 (m + n), 0, []) in
  let! root_of := roots_of n parents postorder in
  let! row_roots := ofold (row_root_step m (cc_levels counts) root_of first_columns perm) (seq 0 m) (repeat 0 m) in
  let! _ := householder_weights m n parents first_columns row_roots in
  let hs := map sort_nats hs in
  Done (CholeskyStructure
    (Structure n n row_indices (pointers_of (cc_col_counts counts)))
    perm
    (Structure m n (concat hs) (pointers_of (map (@length nat) hs)))).
