(** The frame of a picture, over the real numbers. *)
From Coq Require Import List Reals Lra Psatz.
From Verif Require Import Num NumR ModelSystem ModelSvg Spec_Svg Proofs_Svg.
Import ListNotations.
Local Open Scope R_scope.

Lemma fmin_R x y : fmin x y = Rmin x y.
Proof.
  unfold fmin; cbn. unfold Reqb, Rltb. destruct (Req_EM_T x x); [|congruence].
  unfold Rmin. destruct (Rlt_dec y x), (Rle_dec x y); lra.
Qed.
Lemma fmax_R x y : fmax x y = Rmax x y.
Proof.
  unfold fmax; cbn. unfold Reqb, Rltb. destruct (Req_EM_T x x); [|congruence].
  unfold Rmax. destruct (Rlt_dec x y), (Rle_dec x y); lra.
Qed.

(** The extent of a value *)
Definition extent (v : element_value R) : rect R :=
  match v with
  | VLength _ => Rect 0 0 0 0
  | VPoint a => Rect (fst a) (snd a) (fst a) (snd a)
  | VLine a b => Rect (Rmin (fst a) (fst b)) (Rmin (snd a) (snd b)) (Rmax (fst a) (fst b)) (Rmax (snd a) (snd b))
  | VCircle c r => Rect (fst c - Rabs r) (snd c - Rabs r) (fst c + Rabs r) (snd c + Rabs r)
  end.
Definition drawn (v : element_value R) : Prop := match v with VLength _ => False | _ => True end.

Lemma circle_1 a r : Rsqr (a + Rabs r - a) + Rsqr 0 = Rsqr r.
Proof. replace (a + Rabs r - a) with (Rabs r) by ring. rewrite <- (Rsqr_abs r). unfold Rsqr. ring. Qed.
Lemma circle_2 a r : Rsqr (a - Rabs r - a) + Rsqr 0 = Rsqr r.
Proof. replace (a - Rabs r - a) with (- Rabs r) by ring. rewrite <- Rsqr_neg, <- (Rsqr_abs r). unfold Rsqr. ring. Qed.
Lemma circle_bound a b r : Rsqr a + Rsqr b = Rsqr r -> - Rabs r <= a <= Rabs r.
Proof.
  intros E. pose proof (Rle_0_sqr b) as N.
  assert (L : Rsqr a <= Rsqr r) by lra. apply Rsqr_le_abs_0 in L.
  pose proof (Rle_abs a). pose proof (Rle_abs (- a)). rewrite Rabs_Ropp in *. lra.
Qed.

(** The extent is the smallest rectangle around the value. *)
Lemma extent_tight v : drawn v ->
  (forall x y, covers v x y -> rx0 (extent v) <= x <= rx1 (extent v) /\ ry0 (extent v) <= y <= ry1 (extent v)) /\
  (exists y, covers v (rx0 (extent v)) y) /\ (exists y, covers v (rx1 (extent v)) y) /\
  (exists x, covers v x (ry0 (extent v))) /\ (exists x, covers v x (ry1 (extent v))).
Proof.
  destruct v as [l|[a b]|[a b] [c d]|[a b] r]; cbn; intros D; [contradiction|..].
  - split; [intros x y E; inversion E; lra|]. repeat split; eexists; reflexivity.
  - split.
    + intros x y (t & T & -> & ->). unfold Rmin, Rmax. destruct (Rle_dec a c), (Rle_dec b d); nra.
    + unfold Rmin, Rmax. destruct (Rle_dec a c), (Rle_dec b d); repeat split;
        try (eexists; exists 0; split; [lra|split; [ring|reflexivity]]; fail);
        try (eexists; exists 1; split; [lra|split; [ring|reflexivity]]; fail);
        try (eexists; exists 0; split; [lra|split; [reflexivity|ring]]; fail);
        try (eexists; exists 1; split; [lra|split; [reflexivity|ring]]; fail).
  - split.
    + intros x y E. pose proof (circle_bound _ _ _ E) as B1. rewrite Rplus_comm in E.
      pose proof (circle_bound _ _ _ E) as B2. lra.
    + split; [exists b|split; [exists b|split; [exists a|exists a]]].
      * replace (b - b) with 0 by ring. apply circle_2.
      * replace (b - b) with 0 by ring. apply circle_1.
      * replace (a - a) with 0 by ring. rewrite Rplus_comm. apply circle_2.
      * replace (a - a) with 0 by ring. rewrite Rplus_comm. apply circle_1.
Qed.

Lemma grow_extent b v : drawn v ->
  rx0 (grow b v) = Rmin (rx0 b) (rx0 (extent v)) /\ ry0 (grow b v) = Rmin (ry0 b) (ry0 (extent v)) /\
  rx1 (grow b v) = Rmax (rx1 b) (rx1 (extent v)) /\ ry1 (grow b v) = Rmax (ry1 b) (ry1 (extent v)).
Proof. destruct v; cbn; intros D; [contradiction|..]; rewrite ?fmin_R, ?fmax_R; auto. Qed.

(** A running minimum *)
Lemma least_min {A} (f : rect R -> R) (e : A -> R) (step : rect R -> A -> rect R) vs :
  (forall v, In v vs -> forall b, f (step b v) = Rmin (f b) (e v)) ->
  forall b, let m := f (fold_left step vs b) in
    m <= f b /\ (forall v, In v vs -> m <= e v) /\ (m = f b \/ exists v, In v vs /\ m = e v).
Proof.
  induction vs as [|v vs IH]; intros S b; cbn; [repeat split; [lra|intros ? []|auto]|].
  destruct (IH (fun w I => S w (or_intror I)) (step b v)) as (M1 & M2 & M3).
  rewrite (S v (or_introl eq_refl)) in *.
  pose proof (Rmin_l (f b) (e v)). pose proof (Rmin_r (f b) (e v)). split; [lra|]. split.
  - intros w [<-|I]; [lra|auto].
  - destruct M3 as [M3|(w & I & M3)]; [|right; exists w; auto].
    unfold Rmin in M3. destruct (Rle_dec (f b) (e v)); [auto|right; exists v; auto].
Qed.
Lemma most_max {A} (f : rect R -> R) (e : A -> R) (step : rect R -> A -> rect R) vs :
  (forall v, In v vs -> forall b, f (step b v) = Rmax (f b) (e v)) ->
  forall b, let m := f (fold_left step vs b) in
    f b <= m /\ (forall v, In v vs -> e v <= m) /\ (m = f b \/ exists v, In v vs /\ m = e v).
Proof.
  induction vs as [|v vs IH]; intros S b; cbn; [repeat split; [lra|intros ? []|auto]|].
  destruct (IH (fun w I => S w (or_intror I)) (step b v)) as (M1 & M2 & M3).
  rewrite (S v (or_introl eq_refl)) in *.
  pose proof (Rmax_l (f b) (e v)). pose proof (Rmax_r (f b) (e v)). split; [lra|]. split.
  - intros w [<-|I]; [lra|auto].
  - destruct M3 as [M3|(w & I & M3)]; [|right; exists w; auto].
    unfold Rmax in M3. destruct (Rle_dec (f b) (e v)); [right; exists v; auto|auto].
Qed.

Lemma box_tight {C} (shapes : list (shape R C)) vs inf :
  (forall v, In v vs -> exists sh, In sh shapes /\ sh_value sh = v) ->
  (forall sh, In sh shapes -> In (sh_value sh) vs) ->
  (forall sh, In sh shapes -> drawn (sh_value sh)) ->
  shapes <> [] ->
  (forall sh x y, In sh shapes -> covers (sh_value sh) x y -> -inf <= x <= inf /\ -inf <= y <= inf) ->
  let b := fold_left grow vs (Rect inf inf (-inf) (-inf)) in
  tight shapes (rx0 b) (ry0 b) (rx1 b) (ry1 b).
Proof.
  intros V1 V2 D NE B b.
  assert (DV : forall v, In v vs -> drawn v).
  { intros v I. destruct (V1 _ I) as (sh & J & <-). auto. }
  assert (BV : forall v, In v vs -> -inf <= rx0 (extent v) <= inf /\ -inf <= ry0 (extent v) <= inf /\
                 -inf <= rx1 (extent v) <= inf /\ -inf <= ry1 (extent v) <= inf).
  { intros v I. destruct (V1 _ I) as (sh & J & <-).
    destruct (extent_tight (sh_value sh) (D _ J)) as (_ & (y0 & K0) & (y1 & K1) & (x0 & K2) & (x1 & K3)).
    pose proof (B _ _ _ J K0). pose proof (B _ _ _ J K1). pose proof (B _ _ _ J K2). pose proof (B _ _ _ J K3).
    tauto. }
  destruct (least_min rx0 (fun v => rx0 (extent v)) grow vs
              (fun v I b => proj1 (grow_extent b v (DV v I))) (Rect inf inf (-inf) (-inf))) as (_ & A2 & A3).
  destruct (least_min ry0 (fun v => ry0 (extent v)) grow vs
              (fun v I b => proj1 (proj2 (grow_extent b v (DV v I)))) (Rect inf inf (-inf) (-inf))) as (_ & B2 & B3).
  destruct (most_max rx1 (fun v => rx1 (extent v)) grow vs
              (fun v I b => proj1 (proj2 (proj2 (grow_extent b v (DV v I))))) (Rect inf inf (-inf) (-inf))) as (_ & C2 & C3).
  destruct (most_max ry1 (fun v => ry1 (extent v)) grow vs
              (fun v I b => proj2 (proj2 (proj2 (grow_extent b v (DV v I))))) (Rect inf inf (-inf) (-inf))) as (_ & D2 & D3).
  fold b in A2, A3, B2, B3, C2, C3, D2, D3. cbn [rx0 ry0 rx1 ry1] in A3, B3, C3, D3.
  assert (E : exists v, In v vs).
  { destruct shapes as [|sh ?]; [congruence|]. exists (sh_value sh). apply V2. left. reflexivity. }
  destruct E as [e Ie]. pose proof (BV _ Ie) as Be.
  unfold tight. split; [|split; [|split; [|split]]].
  - intros x y (sh & I & K). assert (J := V2 _ I).
    destruct (extent_tight _ (D _ I)) as (T & _). specialize (T _ _ K).
    specialize (A2 _ J). specialize (B2 _ J). specialize (C2 _ J). specialize (D2 _ J). lra.
  - assert (X : exists v, In v vs /\ rx0 b = rx0 (extent v)).
    { destruct A3 as [A3|X]; [|auto]. exists e. split; auto. specialize (A2 _ Ie). lra. }
    destruct X as (v & I & ->). destruct (V1 _ I) as (sh & J & <-).
    destruct (extent_tight _ (D _ J)) as (_ & (y & K) & _). exists y, sh. auto.
  - assert (X : exists v, In v vs /\ rx1 b = rx1 (extent v)).
    { destruct C3 as [C3|X]; [|auto]. exists e. split; auto. specialize (C2 _ Ie). lra. }
    destruct X as (v & I & ->). destruct (V1 _ I) as (sh & J & <-).
    destruct (extent_tight _ (D _ J)) as (_ & _ & (y & K) & _). exists y, sh. auto.
  - assert (X : exists v, In v vs /\ ry0 b = ry0 (extent v)).
    { destruct B3 as [B3|X]; [|auto]. exists e. split; auto. specialize (B2 _ Ie). lra. }
    destruct X as (v & I & ->). destruct (V1 _ I) as (sh & J & <-).
    destruct (extent_tight _ (D _ J)) as (_ & _ & _ & (x & K) & _). exists x, sh. auto.
  - assert (X : exists v, In v vs /\ ry1 b = ry1 (extent v)).
    { destruct D3 as [D3|X]; [|auto]. exists e. split; auto. specialize (D2 _ Ie). lra. }
    destruct X as (v & I & ->). destruct (V1 _ I) as (sh & J & <-).
    destruct (extent_tight _ (D _ J)) as (_ & _ & _ & _ & (x & K)). exists x, sh. auto.
Qed.

Lemma frame_values {C} (p : painter R C) vs :
  let b := fold_left grow vs (Rect (p_infinity p) (p_infinity p) (- p_infinity p) (- p_infinity p)) in
  let m := Rmax (rx1 b - rx0 b) (ry1 b - ry0 b) / 10 in
  rx0 (frame p vs) = rx0 b - m /\ ry0 (frame p vs) = ry0 b - m /\
  rx1 (frame p vs) = rx1 b + m /\ ry1 (frame p vs) = ry1 b + m.
Proof.
  cbv zeta. unfold frame, inflate, width, height, tenm. rewrite fmax_R.
  cbn [rx0 ry0 rx1 ry1 nadd nsub nneg nmul ndiv nofZ NumR].
  replace (IZR 1 / IZR (10 ^ 1)) with (/ 10) by (cbn; lra). auto.
Qed.

From Coq Require Import NArith.
From Verif Require Import Outcome ModelSolve ModelApi Spec_Solver Spec_History Proofs_Api.

Lemma framed (C : Type) (p : painter R C) (env : solver_env R)
    id (l : log R) s qs stroke_width drawn :
  env_ok env -> history env id l s ->
  In drawn (created_elements l) -> ~ hides qs drawn -> eh_tag drawn <> TLength ->
  (forall h v x y, In h (created_elements l) -> get_value h s = Done v -> covers v x y ->
     (Rabs x <= p_infinity p /\ Rabs y <= p_infinity p)%R) ->
  exists below above a b c d,
    layer (p_default p) qs s lower (created_elements l) below /\
    layer (p_default p) qs s upper (created_elements l) above /\
    tight (below ++ above) a b c d /\
    let m := (Rmax (c - a) (d - b) / 10)%R in
    render_system p (asked qs) None stroke_width s =
      Done (print_picture p stroke_width (a - m) (b - m) ((c - a) + 2 * m) ((d - b) + 2 * m) (below ++ above)) /\
    ((exists sh sh' x y x' y', In sh (below ++ above) /\ In sh' (below ++ above) /\
        covers (sh_value sh) x y /\ covers (sh_value sh') x' y' /\ (x, y) <> (x', y')) ->
     0 < (c - a) + 2 * m /\ 0 < (d - b) + 2 * m)%R.
Proof.
  intros EO H I NH T B.
  destruct (picture p env id l s EO H qs stroke_width None) as (below & above & vs & L & U & V1 & V2 & E).
  destruct (once p env id l s EO H qs below above L U) as [_ O].
  assert (K : forall sh, In sh (below ++ above) -> In (sh_of sh) (created_elements l) /\
    get_value (sh_of sh) s = Done (sh_value sh) /\ Proofs_SvgFrame.drawn (sh_value sh)).
  { intros sh J. apply in_app_or in J. destruct J as [J|J].
    - destruct (layer_in _ _ _ _ _ _ L _ J) as (? & _ & G & Q & _). split; [auto|]. split; [auto|].
      destruct (sh_value sh); cbn; auto; discriminate.
    - destruct (layer_in _ _ _ _ _ _ U _ J) as (? & _ & G & Q & _). split; [auto|]. split; [auto|].
      destruct (sh_value sh); cbn; auto; discriminate. }
  assert (NE : below ++ above <> []).
  { intros Z. rewrite Z in O. apply (proj2 (O drawn)). auto. }
  set (b := fold_left grow vs (Rect (p_infinity p) (p_infinity p) (- p_infinity p) (- p_infinity p))).
  assert (TT : tight (below ++ above) (rx0 b) (ry0 b) (rx1 b) (ry1 b)).
  { apply (box_tight (below ++ above) vs (p_infinity p) V1 V2); auto.
    - intros sh J. apply K. auto.
    - intros sh x y J Cv. destruct (K _ J) as (K1 & K2 & _). destruct (B _ _ _ _ K1 K2 Cv) as [X Y].
      unfold Rabs in X, Y. destruct (Rcase_abs x), (Rcase_abs y); lra. }
  exists below, above, (rx0 b), (ry0 b), (rx1 b), (ry1 b).
  split; [exact L|]. split; [exact U|]. split; [exact TT|]. cbv zeta. split.
  - rewrite E. cbv zeta. destruct (frame_values p vs) as (-> & -> & -> & ->). fold b. cbn [nsub NumR].
    set (m := Rmax _ _ / 10).
    replace (rx1 b + m - (rx0 b - m)) with (rx1 b - rx0 b + 2 * m) by ring.
    replace (ry1 b + m - (ry0 b - m)) with (ry1 b - ry0 b + 2 * m) by ring. reflexivity.
  - intros (sh & sh' & x & y & x' & y' & J & J' & Cv & Cv' & D).
    destruct TT as (TT & _). pose proof (TT x y (ex_intro _ sh (conj J Cv))) as [A1 A2].
    pose proof (TT x' y' (ex_intro _ sh' (conj J' Cv'))) as [A3 A4].
    assert (P : 0 < Rmax (rx1 b - rx0 b) (ry1 b - ry0 b)).
    { pose proof (Rmax_l (rx1 b - rx0 b) (ry1 b - ry0 b)). pose proof (Rmax_r (rx1 b - rx0 b) (ry1 b - ry0 b)).
      destruct (Rlt_dec (rx0 b) (rx1 b)); [lra|]. destruct (Rlt_dec (ry0 b) (ry1 b)); [lra|].
      exfalso. apply D. f_equal; lra. }
    lra.
Qed.

Lemma done_inj {A} (x y : A) : Done x = Done y -> y = x.
Proof. congruence. Qed.
(** The history of the example *)
Lemma two_and_circle (env : solver_env R) a b c d r : exists l s,
  let p i := EHandle 7%N i TPoint in
  history env 7%N l s /\ created_elements l = [p 0%nat; p 1%nat; EHandle 7%N 2 TLength; EHandle 7%N 3 TCircle] /\
  get_value (p 0%nat) s = Done (VPoint (a, b)) /\ get_value (p 1%nat) s = Done (VPoint (c, d)) /\
  get_value (EHandle 7%N 2 TLength) s = Done (VLength r) /\
  get_value (EHandle 7%N 3 TCircle) s = Done (VCircle (a, b) r).
Proof.
  cbv zeta. eexists _, _. split.
  - eapply h_call; [eapply h_call; [eapply h_call; [eapply h_call; [apply h_new|..]|..]|..]|..].
    + instantiate (1 := CreatePoint a b). split; [intros ? ? []|]. split; [intros ? []|exact I].
    + reflexivity.
    + instantiate (1 := CreatePoint c d). split; [intros ? ? []|]. split; [intros ? []|exact I].
    + reflexivity.
    + instantiate (1 := CreateLength r). split; [intros ? ? []|]. split; [intros ? []|exact I].
    + reflexivity.
    + instantiate (1 := CreateCircle (EHandle 7%N 0 TPoint) (EHandle 7%N 2 TLength)).
      split; [|split; [intros ? []|exact I]].
      intros h t [Q|[Q|[]]]; inversion Q; subst; (split; [cbn; tauto|intros t' T; inversion T; reflexivity]).
    + reflexivity.
  - repeat split; reflexivity.
Qed.
