(** Model of /repo/fiksi/src/analyze/graph/recursive_assembly.rs (the cluster
    search and the recombination plan) and of the recursive-assembly branch of
    /repo/fiksi/src/assemble/mod.rs.

    A [HashSet] is a duplicate-free list and a [HashMap] a list of pairs with
    different keys; where the code iterates over one, it is in the order that
    [order] gives, an arbitrary permutation.  [i16] is [Z] and [u32] is [nat]: no
    overflow. *)
From Coq Require Import List Arith ZArith Bool.
From Verif Require Import Num Outcome ModelExpr ModelGraph ModelSystem ModelSolve ModelSparse ModelOptimize.
Import ListNotations.
Local Open Scope nat_scope.

(* ----- sets and maps ----- *)

Definition mem (x : nat) (s : list nat) : bool := existsb (Nat.eqb x) s.
Definition set_add (x : nat) (s : list nat) : list nat := if mem x s then s else s ++ [x].
Definition set_remove (x : nat) (s : list nat) : list nat := filter (fun y => negb (x =? y)) s.
(** [HashSet::eq] *)
Definition set_eqb (a b : list nat) : bool := (length a =? length b) && forallb (fun x => mem x b) a.

Definition fmap (A : Type) : Type := list (nat * A).
Definition lookup {A} (k : nat) (m : fmap A) : option A :=
  match find (fun kv => k =? fst kv) m with Some (_, v) => Some v | None => None end.
Definition remove_key {A} (k : nat) (m : fmap A) : fmap A := filter (fun kv => negb (k =? fst kv)) m.
(** [insert]: a new key goes to the end; an old one keeps its place *)
Definition put {A} (k : nat) (v : A) (m : fmap A) : fmap A :=
  match lookup k m with
  | Some _ => map (fun kv => if k =? fst kv then (k, v) else kv) m
  | None => m ++ [(k, v)]
  end.
(** [entry(k).or_default().push(x)] *)
Definition push_at (k x : nat) (m : fmap (list nat)) : fmap (list nat) :=
  put k (match lookup k m with Some l => l | None => [] end ++ [x]) m.

(* ----- the graph ----- *)

(** The cloned graph: degrees of freedom (which may become negative) and incident
    constraints of each element; valency and incident elements of each constraint.
    Simplification: its connected components are not kept up to date, for nothing
    reads them. *)
Record welement := WElement { we_dof : Z; we_constraints : list nat }.
Record wconstraint := WConstraint { wc_valency : Z; wc_elements : list nat }.
Record wgraph := WGraph { wg_elements : list welement; wg_constraints : list wconstraint }.
Definition work_graph (g : graph) : wgraph :=
  WGraph (map (fun e => WElement (Z.of_nat (dof e)) (incident_constraints e)) (g_elements g))
         (map (fun c => WConstraint (Z.of_nat (valency c)) (incident_elements c)) (g_constraints g)).
(** graph.rs 155-171 *)
Definition wg_add_element (g : wgraph) : wgraph :=
  WGraph (wg_elements g ++ [WElement 0 []]) (wg_constraints g).
(** graph.rs 235-254 *)
Definition wg_add_constraint (val : Z) (elements : list nat) (g : wgraph) : outcome wgraph :=
  let c := length (wg_constraints g) in
  let! es := ofold (fun es e =>
      let! x := oget es e in oset es e (WElement (we_dof x) (we_constraints x ++ [c]))) elements (wg_elements g) in
  Done (WGraph es (wg_constraints g ++ [WConstraint val elements])).
(** graph.rs 62-93 *)
Fixpoint merge_elements (pred : nat -> bool) (into : nat) (merged : bool) (l : list nat) : list nat :=
  match l with
  | [] => []
  | x :: l =>
      if pred x then (if merged then [] else [into]) ++ merge_elements pred into true l
      else x :: merge_elements pred into merged l
  end.

(* ----- dense_bfs ----- *)

Section Search.
  (** The order in which a hash set is gone through *)
  Variable order : list nat -> list nat.

  (** 509-534 *)
  Definition additional_valency (g : wgraph) (edges next : list nat) (v : nat) : outcome Z :=
    let! e := oget (wg_elements g) v in
    ofold (fun add id =>
        if mem id edges then
          let! c := oget (wg_constraints g) id in
          Done (if forallb (fun u => mem u next) (wc_elements c) then (add + wc_valency c)%Z else add)
        else Done add) (we_constraints e) 0%Z.
  (** 538-560 *)
  Definition extend_adjacent (g : wgraph) (edges : list nat) (from : nat) (sub vertices adjacent : list nat)
    : outcome (list nat) :=
    let! e := oget (wg_elements g) from in
    ofold (fun adjacent id =>
        if mem id edges then
          let! c := oget (wg_constraints g) id in
          Done (fold_left (fun adjacent u => if mem u vertices && negb (mem u sub) then set_add u adjacent else adjacent)
                          (wc_elements c) adjacent)
        else Done adjacent) (we_constraints e) adjacent.

  (** 563-578: the vertices, their degrees of freedom, the vertices next to them *)
  Record subgraph_state := SubgraphState { sg_vertices : list nat; sg_dof : Z; sg_adjacent : list nat }.

  (** 612-638: the vertices next to a subgraph in turn; the result, or what joins the queue *)
  Fixpoint bfs_expand (d : Z) (g : wgraph) (blocked : list (list nat)) (edges vertices : list nat)
      (s : subgraph_state) (vs : list nat) (queue : list subgraph_state) : outcome (list nat + list subgraph_state) :=
    match vs with
    | [] => Done (inr queue)
    | v :: vs =>
        let next := set_add v (sg_vertices s) in
        let! val := additional_valency g edges next v in
        let! e := oget (wg_elements g) v in
        let dof := (sg_dof s + we_dof e - val)%Z in
        if negb (existsb (set_eqb next) blocked) && (- (d + 1) <? dof)%Z then Done (inl next)
        else
          let! adjacent := extend_adjacent g edges v next vertices (set_remove v (sg_adjacent s)) in
          bfs_expand d g blocked edges vertices s vs (queue ++ [SubgraphState next dof adjacent])
    end.
  (** 605-641 *)
  Fixpoint bfs_loop (fuel : nat) (d : Z) (g : wgraph) (blocked : list (list nat)) (edges vertices : list nat)
      (queue : list subgraph_state) : outcome (option (list nat)) :=
    match queue with
    | [] => Done None
    | s :: queue =>
        match fuel with
        | O => Timeout
        | S fuel =>
            let! r := bfs_expand d g blocked edges vertices s (order (sg_adjacent s)) queue in
            match r with
            | inl found => Done (Some found)
            | inr queue => bfs_loop fuel d g blocked edges vertices queue
            end
        end
    end.
  (** 499-645 *)
  Definition dense_bfs (fuel : nat) (d : Z) (g : wgraph) (blocked : list (list nat)) (edges vertices : list nat)
    : outcome (option (list nat)) :=
    let! queue := omap (fun v =>
        let! adjacent := extend_adjacent g edges v [v] vertices [] in
        let! e := oget (wg_elements g) v in
        Done (SubgraphState [v] (we_dof e) adjacent)) (order vertices) in
    bfs_loop fuel d g blocked edges vertices queue.

  (* ----- decompose ----- *)

  (** 76-118 *)
  Record plan_step := Step {
    st_constraints : list nat;
    st_elements : list nat;
    st_free : list nat;
    st_on_frontiers : fmap (list nat);
    st_owned : fmap (list nat);
    st_frontier : fmap (list nat)
  }.

  (** The bookkeeping of 186-202 that lasts from one cluster to the next.
      ([step_constraints] and [step_fixes_elements] are empty in between.) *)
  Record clusters_state := ClustersState {
    dc_graph : wgraph;
    dc_vertices : list nat;
    dc_edges : list nat;
    dc_constraints_handled : list nat;
    dc_vertices_handled : list nat;
    dc_on_frontiers : fmap (list nat);
    dc_owned : fmap (list nat);
    dc_owning : fmap nat;
    dc_frontier : fmap (list nat);
    dc_blocked : list (list nat);
    dc_steps : list plan_step
  }.

  (** The variables of 262-315: core, frontier, the real elements, the elements fixed
      and constraints solved in this step, and what has been handled *)
  Record sorting_out := SortingOut {
    so_core : list nat;
    so_frontier : list nat;
    so_real : list nat;
    so_fixes : list nat;
    so_constraints : list nat;
    so_vertices_handled : list nat;
    so_constraints_handled : list nat;
    so_owning : fmap nat
  }.
  (** 284-303, one constraint of a vertex; the constraints of the step, those handled,
      and whether the vertex is on the frontier *)
  Definition sort_edge (g : wgraph) (nc : nat) (edges sub : list nat) (st : list nat * list nat * bool) (id : nat)
    : outcome (list nat * list nat * bool) :=
    let '(cs, handled, frontier) := st in
    if mem id edges then
      let! c := oget (wg_constraints g) id in
      if forallb (fun u => mem u sub) (wc_elements c) then
        if (id <? nc) && negb (mem id handled) then Done (cs ++ [id], set_add id handled, frontier)
        else Done (cs, handled, frontier)
      else Done (cs, handled, true)
    else Done (cs, handled, frontier).
  (** 271-310, one vertex *)
  Definition sort_vertex (g : wgraph) (nc ne key : nat) (edges sub : list nat) (st : sorting_out) (v : nat)
    : outcome sorting_out :=
    let! e := oget (wg_elements g) v in
    let real := v <? ne in
    let fixes := real && negb (mem v (so_vertices_handled st)) in
    let! (cs, handled, frontier) :=
      ofold (sort_edge g nc edges sub) (we_constraints e)
            (so_constraints st, so_constraints_handled st, false) in
    Done (SortingOut
            (if frontier then so_core st else so_core st ++ [v])
            (if frontier then set_add v (so_frontier st) else so_frontier st)
            (if real then so_real st ++ [v] else so_real st)
            (if fixes then so_fixes st ++ [v] else so_fixes st)
            cs
            (if fixes then set_add v (so_vertices_handled st) else so_vertices_handled st)
            handled
            (if fixes then put v key (so_owning st) else so_owning st)).

  (** [Vec::swap_remove] *)
  Definition swap_remove (i : nat) (l : list nat) : list nat :=
    firstn (length l - 1) (lset l i (last l 0)).
  (** [iter().position(|&c| c == x)] *)
  Definition position (x : nat) (l : list nat) : option nat := index_of l x.

  (** What 340-386 changes: available constraints, owners, owned elements, frontier
      elements, frontiers *)
  Record merging := Merging {
    mg_edges : list nat;
    mg_owning : fmap nat;
    mg_owned : fmap (list nat);
    mg_frontier : fmap (list nat);
    mg_on_frontiers : fmap (list nat)
  }.
  (** 342-354 *)
  Definition drop_core_edges (g : wgraph) (core : list nat) (v : nat) (edges : list nat) : outcome (list nat) :=
    let! e := oget (wg_elements g) v in
    ofold (fun edges id =>
        let! c := oget (wg_constraints g) id in
        Done (if forallb (fun u => mem u core) (wc_elements c) then set_remove id edges else edges))
      (we_constraints e) edges.
  (** 374-382 *)
  Definition leave_frontier (old : nat) (onf : fmap (list nat)) (x : nat) : outcome (fmap (list nat)) :=
    match lookup x onf with
    | Some l => let! i := ounwrap (position old l) in Done (put x (swap_remove i l) onf)
    | None => Done onf
    end.
  (** 359-383 *)
  Definition merge_cluster (key old : nat) (m : merging) : outcome merging :=
    let! xs := ounwrap (lookup old (mg_owned m)) in
    let owned := remove_key old (mg_owned m) in
    let owning := fold_left (fun o x => put x key o) xs (mg_owning m) in
    let! ys := ounwrap (lookup key owned) in
    let owned := put key (ys ++ xs) owned in
    let! fs := ounwrap (lookup old (mg_frontier m)) in
    let! onf := ofold (leave_frontier old) fs (mg_on_frontiers m) in
    Done (Merging (mg_edges m) owning owned (remove_key old (mg_frontier m)) onf).
  (** 340-386, one vertex *)
  Definition core_vertex (g : wgraph) (ne key : nat) (core : list nat) (m : merging) (v : nat) : outcome merging :=
    let! edges := if v <? ne then drop_core_edges g core v (mg_edges m) else Done (mg_edges m) in
    let! old := ounwrap (lookup v (mg_owning m)) in
    let m := Merging edges (put v key (mg_owning m)) (mg_owned m) (mg_frontier m) (mg_on_frontiers m) in
    let! m := if old =? key then Done m else merge_cluster key old m in
    Done (Merging (mg_edges m) (mg_owning m) (mg_owned m) (mg_frontier m) (remove_key v (mg_on_frontiers m))).

  (** 431-449, one constraint; the constraints, the available ones, and the valency *)
  Definition contract_edge (sub frontier : list nat) (core : nat) (st : list wconstraint * list nat * Z) (id : nat)
    : outcome (list wconstraint * list nat * Z) :=
    let '(cs, edges, val) := st in
    if mem id edges then
      let! c := oget cs id in
      if forallb (fun u => mem u sub) (wc_elements c) then
        let new := merge_elements (fun u => negb (mem u frontier)) core false (wc_elements c) in
        if length new =? 2 then Done (cs, set_remove id edges, (val + wc_valency c)%Z)
        else let! cs := oset cs id (WConstraint (wc_valency c) new) in Done (cs, edges, val)
      else Done (cs, edges, val)
    else Done (cs, edges, val).
  (** 422-461, one vertex; the graph, the available constraints, the degrees of freedom
      and the valency *)
  Definition contract_vertex (sub frontier : list nat) (core : nat) (st : wgraph * list nat * Z * Z) (v : nat)
    : outcome (wgraph * list nat * Z * Z) :=
    let '(g, edges, total_dof, total_val) := st in
    let! e := oget (wg_elements g) v in
    let! (cs, edges, val) :=
      ofold (contract_edge sub frontier core) (we_constraints e) (wg_constraints g, edges, 0%Z) in
    let g := WGraph (wg_elements g) cs in
    let total_dof := (total_dof + we_dof e)%Z in
    if (0 <? val)%Z then
      let id := length (wg_constraints g) in
      let! g := wg_add_constraint val [v; core] g in
      Done (g, set_add id edges, total_dof, (total_val + val)%Z)
    else Done (g, edges, total_dof, total_val).
  (** 409-468 *)
  Definition contract (d : Z) (key : nat) (sub core frontier : list nat) (st : clusters_state) : outcome clusters_state :=
    let vertices := fold_left (fun vs v => set_remove v vs) core (dc_vertices st) in
    let id := length (wg_elements (dc_graph st)) in
    let! (g, edges, total_dof, total_val) :=
      ofold (contract_vertex sub frontier id) (order frontier) (wg_add_element (dc_graph st), dc_edges st, 0%Z, 0%Z) in
    let owning := put id key (dc_owning st) in
    let vertices := set_add id vertices in
    let! (g, vertices) :=
      if (0 <? total_val)%Z then
        let! x := oget (wg_elements g) id in
        let! es := oset (wg_elements g) id (WElement (total_dof - total_val - d)%Z (we_constraints x)) in
        Done (WGraph es (wg_constraints g), vertices)
      else Done (g, set_remove id vertices) in
    Done (ClustersState g vertices edges (dc_constraints_handled st) (dc_vertices_handled st) (dc_on_frontiers st)
            (dc_owned st) owning (dc_frontier st) (dc_blocked st) (dc_steps st)).

  (** 222-253 *)
  Definition last_step (nc ne : nat) (st : clusters_state) : list plan_step :=
    match filter (fun e => (e <? nc) && negb (mem e (dc_constraints_handled st))) (order (dc_edges st)) with
    | [] => []
    | cs => [Step cs (filter (fun v => v <? ne) (order (dc_vertices st)))
               (filter (fun v => (v <? ne) && negb (mem v (dc_vertices_handled st))) (order (dc_vertices st)))
               (dc_on_frontiers st) (dc_owned st) (dc_frontier st)]
    end.

  (** 255-469, one cluster *)
  Definition one_cluster (d : Z) (nc ne key : nat) (sub : list nat) (st : clusters_state) : outcome clusters_state :=
    let g := dc_graph st in
    let! so := ofold (sort_vertex g nc ne key (dc_edges st) sub) (order sub)
                 (SortingOut [] [] [] [] [] (dc_vertices_handled st) (dc_constraints_handled st) (dc_owning st)) in
    let steps :=
      match so_constraints so with
      | [] => dc_steps st
      | cs => dc_steps st ++ [Step cs (so_real so) (so_fixes so) (dc_on_frontiers st) (dc_owned st) (dc_frontier st)]
      end in
    let owned :=
      match so_core so, so_fixes so with
      | [], [] => dc_owned st
      | _, _ => put key (so_fixes so) (dc_owned st)
      end in
    let! m := ofold (core_vertex g ne key (so_core so)) (so_core so)
                (Merging (dc_edges st) (so_owning so) owned (dc_frontier st) (dc_on_frontiers st)) in
    let on_frontiers := fold_left (fun o v => push_at v key o) (order (so_frontier so)) (mg_on_frontiers m) in
    let frontier := fold_left (fun f v => if v <? ne then push_at key v f else f) (order (so_frontier so)) (mg_frontier m) in
    let small := length sub - length (so_frontier so) <=? 1 in
    let st := ClustersState g (dc_vertices st) (mg_edges m) (so_constraints_handled so) (so_vertices_handled so)
                on_frontiers (mg_owned m) (mg_owning m) frontier
                (if small then dc_blocked st ++ [sub] else dc_blocked st) steps in
    if small then Done st else contract d key sub (so_core so) (so_frontier so) st.

  (** 211-470.  [search]: how many rounds the search may take *)
  Fixpoint decompose_loop (fuel search : nat) (d : Z) (nc ne key : nat) (st : clusters_state) : outcome (list plan_step) :=
    match fuel with
    | O => Timeout
    | S fuel =>
        let! sub := dense_bfs search d (dc_graph st) (dc_blocked st) (dc_edges st) (dc_vertices st) in
        match sub with
        | None => Done (dc_steps st ++ last_step nc ne st)
        | Some sub =>
            let! st := one_cluster d nc ne key sub st in
            decompose_loop fuel search d nc ne (S key) st
        end
    end.
  (** 164-473 *)
  Definition decompose (fuel search : nat) (d : Z) (g : graph) (vertices edges : list nat) : outcome (list plan_step) :=
    decompose_loop fuel search d (length (g_constraints g)) (length (g_elements g)) 0
      (ClustersState (work_graph g) vertices edges [] [] [] [] [] [] [] []).
End Search.

(* ----- ClusteredSystem ----- *)

(** assemble/mod.rs 282-315 *)
Record clustered := Clustered {
  cs_elements : list nat;
  cs_clusters : fmap (list nat);
  cs_expressions : list nat;
  cs_num_pose : nat;
  cs_mapping : fmap nat
}.

Section Assembly.
  Context {F : Type} {NF : Num F}.

  Definition is_point (e : encoded_element) : bool := match e with EPoint _ => true | _ => false end.

  (** 356-371 and 378-389: the clusters on whose frontiers a point is *)
  Definition reach (s : system F) (st : plan_step) (reachable : list nat) (id : nat) : outcome (list nat) :=
    let! e := oget (sys_elements s) id in
    if is_point e then
      Done (match lookup id (st_on_frontiers st) with
            | Some cs => fold_left (fun r c => set_add c r) cs reachable
            | None => reachable
            end)
    else Done reachable.
  (** 376-403, one frontier element *)
  Definition reach_frontier (s : system F) (st : plan_step) (acc : list nat * list nat) (id : nat)
    : outcome (list nat * list nat) :=
    let '(reachable, elements) := acc in
    let! e := oget (sys_elements s) id in
    if is_point e then
      let! reachable := reach s st reachable id in
      let n := match lookup id (st_on_frontiers st) with Some cs => length cs | None => 0 end in
      Done (reachable, if negb (mem id elements) && (1 <? n) then elements ++ [id] else elements)
    else Done (reachable, elements).
  (** 374-404 *)
  Fixpoint reach_loop (fuel i : nat) (s : system F) (st : plan_step) (reachable elements : list nat) : outcome (list nat) :=
    match nth_error reachable i with
    | None => Done elements
    | Some c =>
        match fuel with
        | O => Timeout
        | S fuel =>
            let! fs := ounwrap (lookup c (st_frontier st)) in
            let! (reachable, elements) := ofold (reach_frontier s st) fs (reachable, elements) in
            reach_loop fuel (S i) s st reachable elements
        end
    end.
  (** 407-446, one element; the clusters and the number of pose expressions *)
  Definition pose_element (s : system F) (st : plan_step) (acc : fmap (list nat) * nat) (id : nat)
    : outcome (fmap (list nat) * nat) :=
    let '(clusters, n) := acc in
    let! e := oget (sys_elements s) id in
    match lookup id (st_on_frontiers st) with
    | Some cs =>
        if is_point e then Done (fold_left (fun m c => push_at c id m) cs clusters, (n + 2 * length cs)%nat)
        else Done (clusters, n)
    | None => Done (clusters, n)
    end.
  (** 454-473, one element; the mapping and the values *)
  Definition element_values (s : system F) (acc : fmap nat * list F) (id : nat) : outcome (fmap nat * list F) :=
    let '(mapping, values) := acc in
    let! e := oget (sys_elements s) id in
    match e with
    | ELength idx =>
        let! x := oget (sys_variables_transformed s) idx in
        Done (put idx (length values) mapping, values ++ [x])
    | EPoint idx =>
        let! x := oget (sys_variables_transformed s) idx in
        let! y := oget (sys_variables_transformed s) (idx + 1) in
        Done (put (idx + 1) (length values + 1)%nat (put idx (length values) mapping), values ++ [x; y])
    | ELine _ _ | ECircle _ _ => Done (mapping, values)
    end.
  (** 317-477; the clustered system and the initial values.  ([num_variables] is the
      number of those.) *)
  Definition clustered_build (s : system F) (st : plan_step) : outcome (clustered * list F) :=
    let! es := component_expressions s (st_constraints st) in
    let! reachable := ofold (reach s st) (st_elements st) [] in
    let! elements := reach_loop (S (length (flat_map snd (st_on_frontiers st)))) 0 s st reachable (st_elements st) in
    let! (clusters, n) := ofold (pose_element s st) elements ([], 0) in
    let! (mapping, values) := ofold (element_values s) elements ([], repeat nzero (length clusters * 3)) in
    Done (Clustered elements clusters es n mapping, values).

  (** 500-515 and 649-662 *)
  Definition clustered_map (c : clustered) (values : list F) : variable_map F :=
    fun idx =>
      let! i := ounwrap (lookup idx (cs_mapping c)) in
      let! x := oget values i in
      Done (Free x i).
  (** 538-541 *)
  Definition cluster_pose (values : list F) (i : nat) : outcome (pose F) :=
    let! a := oget values (3 * i) in
    let! b := oget values (3 * i + 1) in
    let! c := oget values (3 * i + 2) in
    Done (pose_from_array a b c).
  (** 544-555 and 678-689: a point, and where its values are *)
  Definition frontier_point (s : system F) (c : clustered) (id : nat) : outcome (F * F * nat) :=
    let! e := oget (sys_elements s) id in
    match e with
    | EPoint idx =>
        let! x := oget (sys_variables_transformed s) idx in
        let! y := oget (sys_variables_transformed s) (idx + 1) in
        let! u := ounwrap (lookup idx (cs_mapping c)) in
        Done (x, y, u)
    | _ => Panic
    end.
  (** 543-585, one point of cluster [i]: its two residuals and their derivatives (column and
      value) *)
  Definition coincidence (s : system F) (c : clustered) (values : list F) (i : nat) (p : pose F) (id : nat)
    : outcome (list (F * list (nat * F))) :=
    let! (x, y, u) := frontier_point s c id in
    let '(tx, ty) := transform_point p (x, y) in
    let! ux := oget values u in
    let! uy := oget values (u + 1) in
    let '(gx0, gx1, gx2) := gradient_chain_rule_point p (x, y) (nunit, nzero) in
    let '(gy0, gy1, gy2) := gradient_chain_rule_point p (x, y) (nzero, nunit) in
    Done [(nsub tx ux, [(3 * i, gx0); (3 * i + 1, gx1); (3 * i + 2, gx2); (u, nneg nunit)]);
          (nsub ty uy, [(3 * i, gy0); (3 * i + 1, gy1); (3 * i + 2, gy2); (u + 1, nneg nunit)])]%nat.
  (** 535-587 *)
  Definition coincidences (s : system F) (c : clustered) (values : list F) : outcome (list (F * list (nat * F))) :=
    let! rows := omap (fun '(i, (_, points)) =>
        let! p := cluster_pose values i in
        let! rs := omap (coincidence s c values i p) points in
        Done (concat rs)) (combine (seq 0 (length (cs_clusters c))) (cs_clusters c)) in
    Done (concat rows).
  (** 505-530: the residual of one expression and its derivatives *)
  Definition expression_row (s : system F) (c : clustered) (values : list F) (id : nat)
    : outcome (F * list (nat * F)) :=
    let! e := oget (sys_expressions_transformed s) id in
    let! xs := gather (clustered_map c values) e in
    let '(r, g) := compute_rg e (buffer xs) in
    Done (r, combine (map (fun x => match x with Free _ i => i | Fixed _ => 0 end) xs) g).
  (** 488-589: the rows, the coincidences' first *)
  Definition clustered_rows (s : system F) (c : clustered) (values : list F)
    : outcome (list (F * list (nat * F)) * list (F * list (nat * F))) :=
    let! es := omap (expression_row s c values) (cs_expressions c) in
    let! ps := coincidences s c values in
    Done (ps, es).
  (** The triplets of rows numbered from [start] on *)
  Definition row_triplets (start : nat) (rows : list (F * list (nat * F))) : list (nat * nat * F) :=
    flat_map (fun '(i, (_, g)) => map (fun '(col, x) => (i, col, x)) g) (combine (seq start (length rows)) rows).
  (** 620-725.  Simplification: rows beyond the number of residuals would be a panic in
      the code; there are as many rows as residuals ([cs_num_pose] counts the
      coincidences). *)
  Definition clustered_problem (s : system F) (c : clustered) (num_variables : nat) : problem F :=
    Problem num_variables (length (cs_expressions c) + cs_num_pose c)
      (fun values => let! (ps, es) := clustered_rows s c values in Done (map fst ps ++ map fst es))
      (fun values jacobian =>
         let! (ps, es) := clustered_rows s c values in
         let! jacobian := ofold (fun jac '(row, col, x) =>
             let! r := oget jac row in let! r := oset r col x in oset jac row r)
           (row_triplets (cs_num_pose c) es ++ row_triplets 0 ps) jacobian in
         Done (map fst ps ++ map fst es, jacobian))
      (fun values =>
         let! (ps, es) := clustered_rows s c values in
         Done (map fst ps ++ map fst es, row_triplets (cs_num_pose c) es ++ row_triplets 0 ps)).

  (** 230-237 and 257-268: write values of variables, scaled and not *)
  Definition write_variable (scale : F) (s : system F) (idx : nat) (x : F) : outcome (system F) :=
    let! vt := oset (sys_variables_transformed s) idx x in
    let! vs := oset (sys_variables s) idx (nmul scale x) in
    Done (with_values vs vt s).
  (** 247-274, one element of a cluster *)
  Definition move_element (scale : F) (c : clustered) (p : pose F) (s : system F) (id : nat) : outcome (system F) :=
    if mem id (cs_elements c) then Done s else
    let! e := oget (sys_elements s) id in
    match e with
    | EPoint idx =>
        let! x := oget (sys_variables_transformed s) idx in
        let! y := oget (sys_variables_transformed s) (idx + 1) in
        let '(x, y) := transform_point p (x, y) in
        let! s := write_variable scale s idx x in
        write_variable scale s (idx + 1) y
    | _ => Done s
    end.
  (** 240-276, one cluster *)
  Definition move_cluster (scale : F) (st : plan_step) (c : clustered) (values : list F) (s : system F)
      (ik : nat * (nat * list nat)) : outcome (system F) :=
    let '(i, (key, _)) := ik in
    let! p := cluster_pose values i in
    ofold (move_element scale c p) (match lookup key (st_owned st) with Some l => l | None => [] end) s.

  (** 221-277, one step.  [optimize]: Levenberg-Marquardt *)
  Definition solve_step (optimize : problem F -> list F -> outcome (list F)) (scale : F) (s : system F) (st : plan_step)
    : outcome (system F) :=
    let! (c, values) := clustered_build s st in
    let! values := optimize (clustered_problem s c (length values)) values in
    let! s := ofold (fun s '(idx, i) => let! x := oget values i in write_variable scale s idx x) (cs_mapping c) s in
    ofold (move_cluster scale st c values) (combine (seq 0 (length (cs_clusters c))) (cs_clusters c)) s.

  (** 212-278 *)
  Definition recursive_assembly (optimize : problem F -> list F -> outcome (list F)) (order : list nat -> list nat)
      (fuel search : nat) (scale : F) (elements constraints : list nat) (s : system F) : outcome (system F) :=
    let! steps := decompose order fuel search 3 (sys_graph s) elements constraints in
    ofold (solve_step optimize scale) steps s.
End Assembly.

(** The solver with all its parts as modelled.  [colamd]: the column ordering;
    [sort]: [sort_unstable]; [order]: the iteration order of hash sets; [fuel] and
    [search]: how many rounds loops without a bound may take *)
Definition whole_env {F} {NF : Num F} colamd sort (fuel search : nat) (order : list nat -> list nat) : solver_env F :=
  fiksi_env colamd sort fuel order
    (recursive_assembly (optimize colamd sort fuel LevenbergMarquardt) order fuel search).
