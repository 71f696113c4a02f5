(** Model of the public API: /repo/fiksi/src/lib.rs, elements/mod.rs and
    constraints/mod.rs.  A [System] is a record; every method that takes
    [&mut System] returns the new record; a panic is [Panic]. *)
From Coq Require Import List Arith NArith ZArith.
From Verif Require Import Num Outcome ModelExpr ModelGraph.
Import ListNotations.

(** elements/mod.rs 496-501 *)
Inductive element_tag := TLength | TPoint | TLine | TCircle.

(** lib.rs 123-128 *)
Inductive encoded_element : Type :=
| ELength (idx : nat)
| EPoint (idx : nat)
| ELine (point1_idx point2_idx : nat)
| ECircle (center_idx radius_idx : nat).

(** elements/mod.rs 503-512 *)
Definition element_tag_of (e : encoded_element) : element_tag :=
  match e with
  | ELength _ => TLength
  | EPoint _ => TPoint
  | ELine _ _ => TLine
  | ECircle _ _ => TCircle
  end.

(** constraints/mod.rs 896-908 *)
Inductive constraint_tag :=
| CPointPointCoincidence
| CPointPointDistance
| CPointPointPointAngle
| CPointLineIncidence
| CPointLineDistance
| CPointCircleIncidence
| CSegmentSegmentLengthEquality
| CLineLineAngle
| CLineLineParallelism
| CLineLinePerpendicularity
| CLineCircleTangency.

(** constraints/mod.rs 910-926 and 948-990 *)
Definition tag_valency (t : constraint_tag) : nat :=
  match t with CPointPointCoincidence => 2 | _ => 1 end.

(** lib.rs 134-137 *)
Record encoded_constraint := EncodedConstraint {
  ec_tag : constraint_tag;
  expressions_idx : nat
}.

(** elements/mod.rs 26-32 and 117-123: an element handle.  The typed handle
    [ElementHandle<T>] carries its tag in the Rust type and [AnyElementHandle]
    carries it as a field; both are this record.  [as_any_element] and
    [as_tagged_element] (elements/mod.rs 106-112, 167-182) are identities on it. *)
Record ehandle := EHandle { eh_system : N; eh_id : nat; eh_tag : element_tag }.

(** constraints/mod.rs 63-69 and 127-133, likewise; [as_any_constraint] and
    [as_tagged_constraint] (116-122, 171-221) are identities on it. *)
Record chandle := CHandle { ch_system : N; ch_id : nat; ch_tag : constraint_tag }.

(** elements/mod.rs 133-135, [AnyElementHandle::as_id] *)
Definition as_id (h : ehandle) : N :=
  (eh_system h * 2 ^ 32 + N.of_nat (eh_id h))%N.

(** elements/mod.rs 201-206, 226-231, and constraints/mod.rs 240-244, 265-270:
    equality of handles (the tag is not compared). *)
Definition ehandle_eqb (a b : ehandle) : bool :=
  N.eqb (eh_system a) (eh_system b) && Nat.eqb (eh_id a) (eh_id b).
Definition chandle_eqb (a b : chandle) : bool :=
  N.eqb (ch_system a) (ch_system b) && Nat.eqb (ch_id a) (ch_id b).

(** lib.rs 140-149 *)
Inductive element_value (F : Type) : Type :=
| VLength (length : F)
| VPoint (p : F * F)
| VLine (p0 p1 : F * F)
| VCircle (center : F * F) (radius : F).
Arguments VLength {F}.
Arguments VPoint {F}.
Arguments VLine {F}.
Arguments VCircle {F}.

(** lib.rs 256-303.  [fixed_variables] is a [HashSet<u32>] that the code only
    inserts into, removes from and queries; it is a duplicate-free list here. *)
Record system (F : Type) := System {
  sys_id : N;
  sys_graph : graph;
  sys_eqgraph : eqgraph;
  sys_elements : list encoded_element;
  sys_variables : list F;
  sys_variables_transformed : list F;
  sys_variable_to_primitive : list nat;
  sys_fixed : list nat;
  sys_constraints : list encoded_constraint;
  sys_expressions : list (expr F);
  sys_expressions_transformed : list (expr F);
  sys_expression_to_constraint : list nat
}.
Arguments System {F}.
Arguments sys_id {F}.
Arguments sys_graph {F}.
Arguments sys_eqgraph {F}.
Arguments sys_elements {F}.
Arguments sys_variables {F}.
Arguments sys_variables_transformed {F}.
Arguments sys_variable_to_primitive {F}.
Arguments sys_fixed {F}.
Arguments sys_constraints {F}.
Arguments sys_expressions {F}.
Arguments sys_expressions_transformed {F}.
Arguments sys_expression_to_constraint {F}.

Section System.
  Context {F : Type} {NF : Num F}.

  (** lib.rs 307-325, with the value taken from the process-wide counter *)
  Definition system_new (id : N) : system F :=
    System id graph_new eqgraph_new [] [] [] [] [] [] [] [] [].

  (** lib.rs 331-342 *)
  Definition get_element_handles (s : system F) : list ehandle :=
    map (fun '(id, e) => EHandle (sys_id s) id (element_tag_of e))
        (combine (seq 0 (length (sys_elements s))) (sys_elements s)).

  (** lib.rs 347-358 *)
  Definition get_constraint_handles (s : system F) : list chandle :=
    map (fun '(id, c) => CHandle (sys_id s) id (ec_tag c))
        (combine (seq 0 (length (sys_constraints s))) (sys_constraints s)).

  (** lib.rs 363-407 *)
  Definition add_element (tag : element_tag) (variables : list F)
      (encoded : nat -> encoded_element) (s : system F)
    : outcome (system F * ehandle) :=
    let! id := to_u32 (length (sys_elements s)) in
    let! variables_idx := to_u32 (length (sys_variables s)) in
    let n := length variables in
    Done (System (sys_id s)
                 (graph_add_element n (sys_graph s))
                 (insert_variables n (sys_eqgraph s))
                 (sys_elements s ++ [encoded variables_idx])
                 (sys_variables s ++ variables)
                 (sys_variables_transformed s)
                 (sys_variable_to_primitive s ++ repeat id n)
                 (sys_fixed s)
                 (sys_constraints s)
                 (sys_expressions s)
                 (sys_expressions_transformed s)
                 (sys_expression_to_constraint s),
          EHandle (sys_id s) id tag).

  (** lib.rs 432-442: the equation graph, expressions and back-mapping after
      pushing the expressions of constraint [id]. *)
  Definition push_expressions (id : nat) (es : list (expr F)) (s : system F)
    : outcome (system F) :=
    ofold (fun s e =>
      let! eg := insert_expression (variable_indices e) (sys_eqgraph s) in
      Done (System (sys_id s) (sys_graph s) eg (sys_elements s) (sys_variables s)
                   (sys_variables_transformed s) (sys_variable_to_primitive s)
                   (sys_fixed s) (sys_constraints s) (sys_expressions s ++ [e])
                   (sys_expressions_transformed s)
                   (sys_expression_to_constraint s ++ [id]))) es s.

  (** lib.rs 412-445 *)
  Definition add_constraint (tag : constraint_tag) (es : list (expr F))
      (s : system F) : outcome (system F * chandle) :=
    let! id := to_u32 (length (sys_constraints s)) in
    let! expressions_idx := to_u32 (length (sys_expressions s)) in
    let s1 := System (sys_id s) (sys_graph s) (sys_eqgraph s) (sys_elements s)
                     (sys_variables s) (sys_variables_transformed s)
                     (sys_variable_to_primitive s) (sys_fixed s)
                     (sys_constraints s ++ [EncodedConstraint tag expressions_idx])
                     (sys_expressions s) (sys_expressions_transformed s)
                     (sys_expression_to_constraint s) in
    let! s2 := push_expressions id es s1 in
    Done (s2, CHandle (sys_id s) id tag).

  (** [system.graph.add_constraint(..)] as called by the constraint
      constructors, before [add_constraint]. *)
  Definition with_graph_constraint (valency : nat) (elements : list nat)
      (s : system F) : outcome (system F) :=
    let! g := graph_add_constraint valency elements (sys_graph s) in
    Done (System (sys_id s) g (sys_eqgraph s) (sys_elements s) (sys_variables s)
                 (sys_variables_transformed s) (sys_variable_to_primitive s)
                 (sys_fixed s) (sys_constraints s) (sys_expressions s)
                 (sys_expressions_transformed s) (sys_expression_to_constraint s)).

  (** The repeated [let &EncodedElement::X { .. } = &system.elements[h.id]
      else { unreachable!() }] *)
  Definition point_idx (s : system F) (h : ehandle) : outcome nat :=
    let! e := oget (sys_elements s) (eh_id h) in
    match e with EPoint idx => Done idx | _ => Panic end.
  Definition length_idx (s : system F) (h : ehandle) : outcome nat :=
    let! e := oget (sys_elements s) (eh_id h) in
    match e with ELength idx => Done idx | _ => Panic end.
  Definition line_idx (s : system F) (h : ehandle) : outcome (nat * nat) :=
    let! e := oget (sys_elements s) (eh_id h) in
    match e with ELine a b => Done (a, b) | _ => Panic end.
  Definition circle_idx (s : system F) (h : ehandle) : outcome (nat * nat) :=
    let! e := oget (sys_elements s) (eh_id h) in
    match e with ECircle a b => Done (a, b) | _ => Panic end.
  (** [system.variable_to_primitive[idx]] *)
  Definition primitive (s : system F) (idx : nat) : outcome nat :=
    oget (sys_variable_to_primitive s) idx.

  (** elements/mod.rs 280-284 *)
  Definition length_create (length : F) (s : system F) :=
    add_element TLength [length] ELength s.
  (** elements/mod.rs 321-325 *)
  Definition point_create (x y : F) (s : system F) :=
    add_element TPoint [x; y] EPoint s.
  (** elements/mod.rs 365-382 *)
  Definition line_create (point1 point2 : ehandle) (s : system F) :=
    let! p1 := point_idx s point1 in
    let! p2 := point_idx s point2 in
    add_element TLine [] (fun _ => ELine p1 p2) s.
  (** elements/mod.rs 437-454 *)
  Definition circle_create (center radius : ehandle) (s : system F) :=
    let! c := point_idx s center in
    let! r := length_idx s radius in
    add_element TCircle [] (fun _ => ECircle c r) s.

  (** elements/mod.rs 302-307, 346-351, 413-422, 482-491: the variables of an
      element.  [T::variable_indices] is [unreachable!()] on an element of
      another kind. *)
  Definition element_variables (e : encoded_element) : list nat :=
    match e with
    | ELength idx => [idx]
    | EPoint idx => pt idx
    | ELine a b => pt a ++ pt b
    | ECircle c r => pt c ++ [r]
    end.
  Definition typed_element (s : system F) (h : ehandle) : outcome encoded_element :=
    let! e := oget (sys_elements s) (eh_id h) in
    match eh_tag h, e with
    | TLength, ELength _ | TPoint, EPoint _ | TLine, ELine _ _ | TCircle, ECircle _ _ =>
        Done e
    | _, _ => Panic
    end.

  Definition with_fixed (fixed : list nat) (s : system F) : system F :=
    System (sys_id s) (sys_graph s) (sys_eqgraph s) (sys_elements s)
           (sys_variables s) (sys_variables_transformed s)
           (sys_variable_to_primitive s) fixed (sys_constraints s)
           (sys_expressions s) (sys_expressions_transformed s)
           (sys_expression_to_constraint s).
  Definition with_variables (vs : list F) (s : system F) : system F :=
    System (sys_id s) (sys_graph s) (sys_eqgraph s) (sys_elements s)
           vs (sys_variables_transformed s)
           (sys_variable_to_primitive s) (sys_fixed s) (sys_constraints s)
           (sys_expressions s) (sys_expressions_transformed s)
           (sys_expression_to_constraint s).
  Definition with_expressions (es : list (expr F)) (s : system F) : system F :=
    System (sys_id s) (sys_graph s) (sys_eqgraph s) (sys_elements s)
           (sys_variables s) (sys_variables_transformed s)
           (sys_variable_to_primitive s) (sys_fixed s) (sys_constraints s)
           es (sys_expressions_transformed s)
           (sys_expression_to_constraint s).

  (** elements/mod.rs 60-65 *)
  Definition fix_element (h : ehandle) (s : system F) : outcome (system F) :=
    let! e := typed_element s h in
    Done (with_fixed (set_extend (sys_fixed s) (element_variables e)) s).
  (** elements/mod.rs 80-85 *)
  Definition unfix_element (h : ehandle) (s : system F) : outcome (system F) :=
    let! e := typed_element s h in
    Done (with_fixed
            (filter (fun v => negb (existsb (Nat.eqb v) (element_variables e)))
                    (sys_fixed s)) s).

  (** [kurbo::Point { x: variables[i], y: variables[i + 1] }] *)
  Definition read_point (vs : list F) (i : nat) : outcome (F * F) :=
    let! x := oget vs i in let! y := oget vs (S i) in Done (x, y).

  (** elements/mod.rs 295-300, 336-344, 393-411, 465-480 *)
  Definition from_encoded_element (e : encoded_element) (vs : list F)
    : outcome (element_value F) :=
    match e with
    | ELength idx => let! l := oget vs idx in Done (VLength l)
    | EPoint idx => let! p := read_point vs idx in Done (VPoint p)
    | ELine a b =>
        let! p0 := read_point vs a in
        let! p1 := read_point vs b in Done (VLine p0 p1)
    | ECircle c r =>
        let! p := read_point vs c in
        let! r := oget vs r in Done (VCircle p r)
    end.

  (** elements/mod.rs 88-100 and 138-164, [get_value] *)
  Definition get_value (h : ehandle) (s : system F) : outcome (element_value F) :=
    let! _ := oassert (N.eqb (eh_system h) (sys_id s)) in
    let! e := typed_element s h in
    from_encoded_element e (sys_variables s).

  (** elements/mod.rs 560-567 *)
  Definition point_update_value (h : ehandle) (x y : F) (s : system F)
    : outcome (system F) :=
    let! idx := point_idx s h in
    let! vs := oset (sys_variables s) idx x in
    let! vs := oset vs (S idx) y in
    Done (with_variables vs s).
  (** elements/mod.rs 572-578 *)
  Definition length_update_value (h : ehandle) (l : F) (s : system F)
    : outcome (system F) :=
    let! idx := length_idx s h in
    let! vs := oset (sys_variables s) idx l in
    Done (with_variables vs s).

  (** utils.rs 12-20, [sum_squares].  Rust's [f64: Sum] folds from 0 (from
      -0.0 in recent releases, which differs only when every term is -0.0;
      squares are never -0.0). *)
  Definition sum_squares (l : list F) : F :=
    fold_left (fun acc v => nadd acc (nmul v v)) l nzero.

  (** constraints/mod.rs 88-110 and 144-168, [calculate_residual].  The typed
      handle's [T::VALENCY] and the erased handle's [tag.valency()] are the
      same table. *)
  Definition constraint_residual (h : chandle) (s : system F) : outcome F :=
    let! _ := oassert (N.eqb (ch_system h) (sys_id s)) in
    let! c := oget (sys_constraints s) (ch_id h) in
    let vm := identity_map (sys_variables s) in
    let valency := tag_valency (ch_tag h) in
    if 1 <? valency then
      let! rs := omap (fun offset =>
          let! e := oget (sys_expressions s) (expressions_idx c + offset) in
          calculate_residual vm e) (seq 0 valency) in
      Done (nsqrt (sum_squares rs))
    else
      let! e := oget (sys_expressions s) (expressions_idx c) in
      calculate_residual vm e.

  (** constraints/mod.rs 317-352 *)
  Definition coincidence_create (point1 point2 : ehandle) (s : system F) :=
    let! p1 := point_idx s point1 in
    let! p2 := point_idx s point2 in
    let! s := with_graph_constraint 2 [eh_id point1; eh_id point2] s in
    add_constraint CPointPointCoincidence
      [VariableVariableEquality p1 p2; VariableVariableEquality (S p1) (S p2)] s.

  (** constraints/mod.rs 372-400 *)
  Definition ppd_create (point1 point2 : ehandle) (distance : F) (s : system F) :=
    let! p1 := point_idx s point1 in
    let! p2 := point_idx s point2 in
    let! s := with_graph_constraint 1 [eh_id point1; eh_id point2] s in
    add_constraint CPointPointDistance [PointPointDistance p1 p2 distance] s.

  (** constraints/mod.rs 416-454 *)
  Definition pppa_create (point1 point2 point3 : ehandle) (angle : F) (s : system F) :=
    let! p1 := point_idx s point1 in
    let! p2 := point_idx s point2 in
    let! p3 := point_idx s point3 in
    let! s := with_graph_constraint 1 [eh_id point1; eh_id point2; eh_id point3] s in
    add_constraint CPointPointPointAngle [PointPointPointAngle p1 p2 p3 angle] s.

  (** constraints/mod.rs 473-506 *)
  Definition pli_create (point line : ehandle) (s : system F) :=
    let! p := point_idx s point in
    let! (l1, l2) := line_idx s line in
    let! e1 := primitive s l1 in
    let! e2 := primitive s l2 in
    let! s := with_graph_constraint 1 [eh_id point; e1; e2] s in
    add_constraint CPointLineIncidence [PointLineIncidence p l1 l2] s.

  (** constraints/mod.rs 527-562 *)
  Definition pld_create (point line : ehandle) (distance : F) (s : system F) :=
    let! p := point_idx s point in
    let! (l1, l2) := line_idx s line in
    let! e1 := primitive s l1 in
    let! e2 := primitive s l2 in
    let! s := with_graph_constraint 1 [eh_id point; e1; e2] s in
    add_constraint CPointLineDistance [PointLineDistance p l1 l2 distance] s.

  (** constraints/mod.rs 577-610 *)
  Definition pci_create (point circle : ehandle) (s : system F) :=
    let! p := point_idx s point in
    let! (c, r) := circle_idx s circle in
    let! e1 := primitive s c in
    let! e2 := primitive s r in
    let! s := with_graph_constraint 1 [eh_id point; e1; e2] s in
    add_constraint CPointCircleIncidence [PointCircleIncidence p c r] s.

  (** constraints/mod.rs 625-676 *)
  Definition ssle_create (a b c d : ehandle) (s : system F) :=
    let! ia := point_idx s a in
    let! ib := point_idx s b in
    let! ic := point_idx s c in
    let! id := point_idx s d in
    let! e1 := primitive s ia in
    let! e2 := primitive s ib in
    let! e3 := primitive s ic in
    let! e4 := primitive s id in
    let! s := with_graph_constraint 1 [e1; e2; e3; e4] s in
    add_constraint CSegmentSegmentLengthEquality
      [SegmentSegmentLengthEquality ia ib ic id] s.

  (** constraints/mod.rs 690-731, 745-784, 798-837: the three line-line
      constraints differ only in the tag and the expression. *)
  Definition line_line_create (tag : constraint_tag)
      (mk : nat -> nat -> nat -> nat -> expr F) (line1 line2 : ehandle) (s : system F) :=
    let! (a, b) := line_idx s line1 in
    let! (c, d) := line_idx s line2 in
    let! e1 := primitive s a in
    let! e2 := primitive s b in
    let! e3 := primitive s c in
    let! e4 := primitive s d in
    let! s := with_graph_constraint 1 [e1; e2; e3; e4] s in
    add_constraint tag [mk a b c d] s.
  Definition lla_create (line1 line2 : ehandle) (angle : F) (s : system F) :=
    line_line_create CLineLineAngle
      (fun a b c d => LineLineAngle a b c d angle) line1 line2 s.
  Definition llp_create (line1 line2 : ehandle) (s : system F) :=
    line_line_create CLineLineParallelism LineLineParallelism line1 line2 s.
  Definition llperp_create (line1 line2 : ehandle) (s : system F) :=
    line_line_create CLineLinePerpendicularity LineLinePerpendicularity line1 line2 s.

  (** constraints/mod.rs 852-891 *)
  Definition lct_create (line circle : ehandle) (s : system F) :=
    let! (l1, l2) := line_idx s line in
    let! (c, r) := circle_idx s circle in
    let! e1 := primitive s l1 in
    let! e2 := primitive s l2 in
    let! e3 := primitive s c in
    let! e4 := primitive s r in
    let! s := with_graph_constraint 1 [e1; e2; e3; e4] s in
    add_constraint CLineCircleTangency [LineCircleTangency l1 l2 c r] s.

  (** constraints/mod.rs 994-1003, 1008-1017, 1022-1031, 1036-1045,
      [update_parameter] of the four constraints that have a parameter; which
      one is called is fixed by the handle's type. *)
  Definition set_parameter (tag : constraint_tag) (x : F) (e : expr F)
    : outcome (expr F) :=
    match tag, e with
    | CPointPointDistance, PointPointDistance a b _ => Done (PointPointDistance a b x)
    | CPointPointPointAngle, PointPointPointAngle a b c _ =>
        Done (PointPointPointAngle a b c x)
    | CPointLineDistance, PointLineDistance a b c _ => Done (PointLineDistance a b c x)
    | CLineLineAngle, LineLineAngle a b c d _ => Done (LineLineAngle a b c d x)
    | _, _ => Panic
    end.
  Definition update_parameter (h : chandle) (x : F) (s : system F)
    : outcome (system F) :=
    let! c := oget (sys_constraints s) (ch_id h) in
    let! e := oget (sys_expressions s) (expressions_idx c) in
    let! e' := set_parameter (ch_tag h) x e in
    let! es := oset (sys_expressions s) (expressions_idx c) e' in
    Done (with_expressions es s).
End System.
