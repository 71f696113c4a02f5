(** The gradients are derivatives: along any differentiable path of the slots
    the residual changes at the rate the gradient says. *)
From Coq Require Import List Reals Lra Psatz Bool Arith Lia.
From Coquelicot Require Import Coquelicot.
From Verif Require Import Num NumR ModelExpr ModelSystem ModelSolve ModelApi
  Spec_Geometry Proofs_Real Proofs_Geometry.
Import ListNotations.
Local Open Scope R_scope.

(** Derivatives of real functions, in the form used below *)
Lemma D_val f (t l l' : R) : is_derive f t l -> l = l' -> is_derive f t l'.
Proof. now intros H <-. Qed.
Lemma D_const (c t : R) : is_derive (fun _ => c) t 0.
Proof. apply (is_derive_const (V := R_NormedModule)). Qed.
Lemma D_id (t : R) : is_derive (fun s => s) t 1.
Proof. apply (is_derive_id (K := R_AbsRing)). Qed.
Lemma D_plus (f g : R -> R) (t f' g' : R) : is_derive f t f' -> is_derive g t g' -> is_derive (fun s => f s + g s) t (f' + g').
Proof. intros. apply (is_derive_plus f g); auto. Qed.
Lemma D_minus (f g : R -> R) (t f' g' : R) : is_derive f t f' -> is_derive g t g' -> is_derive (fun s => f s - g s) t (f' - g').
Proof. intros. apply (is_derive_minus f g); auto. Qed.
Lemma D_opp (f : R -> R) (t f' : R) : is_derive f t f' -> is_derive (fun s => - f s) t (- f').
Proof. intros. apply (is_derive_opp f); auto. Qed.
Lemma D_mult (f g : R -> R) (t f' g' : R) : is_derive f t f' -> is_derive g t g' -> is_derive (fun s => f s * g s) t (f' * g t + f t * g').
Proof. intros. apply (is_derive_mult f g); auto. intros; apply Rmult_comm. Qed.
Lemma D_div (f g : R -> R) (t f' g' : R) : is_derive f t f' -> is_derive g t g' -> g t <> 0 ->
  is_derive (fun s => f s / g s) t ((f' * g t - f t * g') / (g t ^ 2)).
Proof. intros. apply (is_derive_div f g); auto. Qed.
Lemma D_sqrt (f : R -> R) (t f' : R) : is_derive f t f' -> 0 < f t -> is_derive (fun s => sqrt (f s)) t (f' / (2 * sqrt (f t))).
Proof. intros. apply (is_derive_sqrt f); auto. Qed.
Lemma D_atan2 (f g : R -> R) (t f' g' : R) : is_derive f t f' -> is_derive g t g' -> ~ (f t = 0 /\ g t <= 0) ->
  is_derive (fun t => atan2 (f t) (g t)) t ((f' * g t - g' * f t) / (g t * g t + f t * f t)).
Proof. apply is_derive_atan2. Qed.
Lemma D_cont (f : R -> R) (t f' : R) : is_derive f t f' -> continuous f t.
Proof. intros. apply (ex_derive_continuous f). eexists; eauto. Qed.
Lemma D_pos (f : R -> R) (t f' : R) : is_derive f t f' -> 0 < f t -> locally t (fun s => 0 < f s).
Proof. intros H P. apply (D_cont _ _ _ H (fun x => 0 < x)). now apply open_gt. Qed.
Lemma D_neg (f : R -> R) (t f' : R) : is_derive f t f' -> f t < 0 -> locally t (fun s => f s < 0).
Proof. intros H P. apply (D_cont _ _ _ H (fun x => x < 0)). now apply open_lt. Qed.
Lemma D_nonzero (f : R -> R) (t f' : R) : is_derive f t f' -> f t <> 0 -> locally t (fun s => f s <> 0).
Proof.
  intros H P. destruct (Rtotal_order (f t) 0) as [L|[L|L]]; [|contradiction|].
  - eapply filter_imp; [|eapply D_neg; eauto]. simpl. intros; lra.
  - eapply filter_imp; [|eapply D_pos; eauto]. simpl. intros; lra.
Qed.
Lemma D_abs (f : R -> R) (t f' : R) : is_derive f t f' -> f t <> 0 ->
  is_derive (fun s => Rabs (f s)) t ((if Rlt_dec (f t) 0 then -1 else 1) * f').
Proof.
  intros H P. destruct (Rlt_dec (f t) 0) as [L|L].
  - apply is_derive_ext_loc with (fun s => - f s).
    + eapply filter_imp; [|eapply D_neg; eauto]. simpl. intros. now rewrite Rabs_left.
    + eapply D_val; [apply D_opp; eauto|ring].
  - apply is_derive_ext_loc with f.
    + eapply filter_imp; [|eapply (D_pos f); eauto; lra]. simpl. intros. now rewrite Rabs_right by lra.
    + eapply D_val; [eauto|ring].
Qed.

Ltac dv :=
  lazymatch goal with
  | |- is_derive (fun t => @?f t + @?g t) _ _ => eapply (D_plus f g); dv
  | |- is_derive (fun t => @?f t - @?g t) _ _ => eapply (D_minus f g); dv
  | |- is_derive (fun t => @?f t * @?g t) _ _ => eapply (D_mult f g); dv
  | |- is_derive (fun t => @?f t / @?g t) _ _ => eapply (D_div f g); [dv|dv|cbv beta]
  | |- is_derive (fun t => - @?f t) _ _ => eapply (D_opp f); dv
  | |- is_derive (fun t => sqrt (@?f t)) _ _ => eapply (D_sqrt f); [dv|cbv beta]
  | |- is_derive (fun t => Rabs (@?f t)) _ _ => eapply (D_abs f); [dv|cbv beta]
  | |- is_derive (fun t => atan2 (@?f t) (@?g t)) _ _ => eapply (D_atan2 f g); [dv|dv|cbv beta]
  | |- is_derive (fun t => t) _ _ => apply D_id
  | |- is_derive (fun _ => ?c) _ _ => apply D_const
  | |- is_derive _ _ _ => eauto
  end.

(** The inner product of a gradient with the rates of the slots *)
Fixpoint rate_from (k : nat) (g : list R) (w : nat -> R) : R :=
  match g with [] => 0 | d :: g' => d * w k + rate_from (S k) g' w end.
Definition rate (g : list R) (w : nat -> R) : R := rate_from 0 g w.

Lemma slot_neq v i j : slot_point v i <> slot_point v j ->
  v i - v j <> 0 \/ v (S i) - v (S j) <> 0.
Proof. intros H. apply (point_neq (slot_point v j) (slot_point v i)). auto. Qed.
Lemma slot_sq v i j : slot_point v i <> slot_point v j ->
  0 < (v i - v j) * (v i - v j) + (v (S i) - v (S j)) * (v (S i) - v (S j)).
Proof. intros H. apply norm_pos. now apply slot_neq. Qed.

(** The turn from one leg to another *)
Lemma D_turn (ux uy vx vy : R -> R) (t ux' uy' vx' vy' : R) :
  is_derive ux t ux' -> is_derive uy t uy' -> is_derive vx t vx' -> is_derive vy t vy' ->
  (ux t <> 0 \/ uy t <> 0) -> (vx t <> 0 \/ vy t <> 0) ->
  ~ opposite (ux t, uy t) (vx t, vy t) ->
  is_derive (fun s => wrapR (atan2 (vy s) (vx s) - atan2 (uy s) (ux s))) t
    ((vy' * vx t - vx' * vy t) / (vx t * vx t + vy t * vy t)
     - (uy' * ux t - ux' * uy t) / (ux t * ux t + uy t * uy t)).
Proof.
  intros Hux Huy Hvx Hvy Hu Hv Hop.
  set (cr := fun s => ux s * vy s - uy s * vx s). set (dt := fun s => ux s * vx s + uy s * vy s).
  assert (Dcr : is_derive cr t ((ux' * vy t + ux t * vy') - (uy' * vx t + uy t * vx'))) by (unfold cr; dv).
  assert (Ddt : is_derive dt t ((ux' * vx t + ux t * vx') + (uy' * vy t + uy t * vy'))) by (unfold dt; dv).
  pose proof (norm_pos _ _ Hu) as Nu. pose proof (norm_pos _ _ Hv) as Nv.
  assert (Nn : dt t * dt t + cr t * cr t = (ux t * ux t + uy t * uy t) * (vx t * vx t + vy t * vy t)) by (unfold dt, cr; ring).
  assert (Np : 0 < dt t * dt t + cr t * cr t) by (rewrite Nn; now apply Rmult_lt_0_compat).
  rewrite (opposite_iff (ux t, uy t) (vx t, vy t) Hu) in Hop. simpl in Hop. fold (cr t) (dt t) in Hop.
  assert (Hop' : cr t <> 0 \/ 0 < dt t).
  { destruct (Req_dec (cr t) 0) as [Z|]; [right|auto]. rewrite Z in *.
    destruct (Rtotal_order (dt t) 0) as [L|[L|L]]; auto; [exfalso; auto|exfalso; rewrite L in Np; lra]. }
  assert (L : locally t (fun s => cr s <> 0 \/ 0 < dt s)).
  { destruct Hop' as [P|P].
    - eapply filter_imp; [|eapply (D_nonzero cr); eauto]. simpl; auto.
    - eapply filter_imp; [|eapply (D_pos dt); eauto]. simpl; auto. }
  apply is_derive_ext_loc with (fun s => atan2 (cr s) (dt s)).
  - eapply filter_imp; [|exact L]. intros s Hs. simpl. symmetry. unfold cr, dt in *.
    apply turn_atan2.
    + destruct (Req_dec (ux s) 0) as [Z|]; [|auto]. right. intros Z'. rewrite Z, Z' in Hs. lra.
    + destruct (Req_dec (vx s) 0) as [Z|]; [|auto]. right. intros Z'. rewrite Z, Z' in Hs. lra.
    + destruct Hs; lra.
  - eapply D_val; [eapply D_atan2; [exact Dcr|exact Ddt|]|].
    + intros [Z1 Z2]. destruct Hop'; lra.
    + unfold cr, dt in *. field. repeat split; try lra. 
Qed.

Theorem path_derivative (e : expr R) (p : nat -> R -> R) (w : nat -> R) (t : R) :
  (forall i, is_derive (p i) t (w i)) -> nondegenerate e (fun i => p i t) ->
  is_derive (fun s => fst (compute_rg e (fun i => p i s))) t
    (rate (snd (compute_rg e (fun i => p i t))) w).
Proof.
  intros Hp Hn. destruct e; cbn [compute_rg nondegenerate] in *.
  - unfold vve_rg. cbn. eapply D_val; [dv|]. ring.
  - apply slot_sq in Hn. cbn in Hn. unfold ppd_rg, square. cbn.
    assert (S : 0 < sqrt ((p 0%nat t - p 2%nat t) * (p 0%nat t - p 2%nat t) + (p 1%nat t - p 3%nat t) * (p 1%nat t - p 3%nat t))) by (now apply sqrt_lt_R0).
    eapply D_val; [dv; auto|]. field. lra.
  - destruct Hn as (H1 & H2 & H3). unfold pppa_rg, wrap_angle, vatan2, lit. cbn.
    pose proof (slot_neq _ _ _ H1) as N1. pose proof (slot_neq _ _ _ H2) as N2. cbn in N1, N2.
    pose proof (slot_sq _ _ _ H1) as P1. pose proof (slot_sq _ _ _ H2) as P2. cbn in P1, P2.
    eapply D_val.
    + eapply D_minus; [|apply D_const].
      refine (D_turn (fun s => p 0%nat s - p 2%nat s) (fun s => p 1%nat s - p 3%nat s)
        (fun s => p 4%nat s - p 2%nat s) (fun s => p 5%nat s - p 3%nat s) t _ _ _ _ _ _ _ _ N1 N2 H3); dv.
    + unfold rate, rate_from, recip, hypot2, dot. cbn. field. lra.
  - unfold pli_rg, cross. cbn. eapply D_val; [dv|]. unfold rate, rate_from. cbn. ring.
  - apply slot_sq in Hn. cbn in Hn. unfold pld_rg, cross, hypot2, dot. cbn.
    set (q := fun s => (p 4%nat s - p 2%nat s) * (p 4%nat s - p 2%nat s) + (p 5%nat s - p 3%nat s) * (p 5%nat s - p 3%nat s)).
    assert (Q : 0 < q t) by (unfold q; lra).
    assert (S : 0 < sqrt (q t)) by (now apply sqrt_lt_R0).
    assert (SS : sqrt (q t) * sqrt (q t) = q t) by (apply sqrt_sqrt; lra).
    assert (Dq : is_derive q t (2 * (w 4%nat - w 2%nat) * (p 4%nat t - p 2%nat t) + 2 * (w 5%nat - w 3%nat) * (p 5%nat t - p 3%nat t))).
    { unfold q. eapply D_val; [dv|]. ring. }
    eapply D_val; [eapply D_minus; [eapply D_mult; [eapply (D_div (fun _ => 1) (fun s => sqrt (q s))); [apply D_const|eapply D_sqrt; [exact Dq|auto]|lra]|dv]|apply D_const]|].
    fold (q t). unfold rate, rate_from. cbn. fold (q t).
    set (r := sqrt (q t)) in *. rewrite <- SS. unfold q in SS. clearbody r.
    field_simplify_eq; [|lra].
    assert (R2 : r ^ 2 = (p 4%nat t - p 2%nat t) * (p 4%nat t - p 2%nat t) + (p 5%nat t - p 3%nat t) * (p 5%nat t - p 3%nat t)) by (rewrite <- SS; ring).
    rewrite ?R2. ring.
  - apply slot_sq in Hn. cbn in Hn. unfold pci_rg, ppd_rg, square. cbn.
    assert (S : 0 < sqrt ((p 0%nat t - p 2%nat t) * (p 0%nat t - p 2%nat t) + (p 1%nat t - p 3%nat t) * (p 1%nat t - p 3%nat t))) by (now apply sqrt_lt_R0).
    eapply D_val; [dv; auto|]. field. lra.
  - destruct Hn as (H1 & H2). apply slot_sq in H1. apply slot_sq in H2. cbn in H1, H2.
    unfold ssle_rg, ppd_rg, square. cbn.
    assert (S1 := sqrt_lt_R0 _ H1). assert (S2 := sqrt_lt_R0 _ H2).
    eapply D_val; [dv; auto|]. unfold rate, rate_from. field. lra.
  - destruct Hn as (H1 & H2 & H3). unfold lla_rg, wrap_angle, vatan2, lit. cbn.
    assert (N1 := slot_neq _ _ _ (not_eq_sym H1)). assert (N2 := slot_neq _ _ _ (not_eq_sym H2)). cbn in N1, N2.
    assert (P1 := slot_sq _ _ _ (not_eq_sym H1)). assert (P2 := slot_sq _ _ _ (not_eq_sym H2)). cbn in P1, P2.
    eapply D_val.
    + eapply D_minus; [|apply D_const].
      refine (D_turn (fun s => p 2%nat s - p 0%nat s) (fun s => p 3%nat s - p 1%nat s)
        (fun s => p 6%nat s - p 4%nat s) (fun s => p 7%nat s - p 5%nat s) t _ _ _ _ _ _ _ _ N1 N2 H3); dv.
    + unfold rate, rate_from, recip, hypot2, dot. cbn. field. lra.
  - unfold llp_rg, cross. cbn. eapply D_val; [dv|]. unfold rate, rate_from. cbn. ring.
  - unfold llperp_rg, dot. cbn. eapply D_val; [dv|]. unfold rate, rate_from. cbn. ring.
  - destruct Hn as (H1 & H2). rewrite (on_line_iff _ _ _ H1) in H2. apply slot_sq in H1. cbn in H1, H2.
    unfold lct_rg, hypot2, dot. cbn.
    set (q := fun s => (p 0%nat s - p 2%nat s) * (p 0%nat s - p 2%nat s) + (p 1%nat s - p 3%nat s) * (p 1%nat s - p 3%nat s)).
    set (ar := fun s => p 0%nat s * (p 3%nat s - p 5%nat s) + p 2%nat s * (p 5%nat s - p 1%nat s) + p 4%nat s * (p 1%nat s - p 3%nat s)).
    assert (Q : 0 < q t) by exact H1.
    assert (S : 0 < sqrt (q t)) by (now apply sqrt_lt_R0).
    assert (SS : sqrt (q t) * sqrt (q t) = q t) by (apply sqrt_sqrt; lra).
    assert (Dq : is_derive q t (2 * (w 0%nat - w 2%nat) * (p 0%nat t - p 2%nat t) + 2 * (w 1%nat - w 3%nat) * (p 1%nat t - p 3%nat t))).
    { unfold q. eapply D_val; [dv|]. ring. }
    assert (A : ar t <> 0). { intros Z. apply H2. rewrite <- Z. unfold ar. ring. }
    assert (Da : is_derive ar t (w 0%nat * (p 3%nat t - p 5%nat t) + p 0%nat t * (w 3%nat - w 5%nat)
       + (w 2%nat * (p 5%nat t - p 1%nat t) + p 2%nat t * (w 5%nat - w 1%nat))
       + (w 4%nat * (p 1%nat t - p 3%nat t) + p 4%nat t * (w 1%nat - w 3%nat)))) by (unfold ar; dv).
    apply is_derive_ext_loc with (fun s => 1 / sqrt (q s) * Rabs (ar s) - p 6%nat s).
    { eapply filter_imp; [|eapply (D_pos q); eauto]. intros s Hs. simpl in Hs |- *. fold (q s) (ar s).
      destruct (Reqb_spec (sqrt (q s)) 0) as [Z|Z]; [apply sqrt_eq_0 in Z; lra|reflexivity]. }
    fold (q t) (ar t). destruct (Reqb_spec (sqrt (q t)) 0) as [Z|Z]; [lra|].
    eapply D_val; [eapply D_minus; [eapply D_mult; [eapply (D_div (fun _ => 1) (fun s => sqrt (q s))); [apply D_const|eapply D_sqrt; [exact Dq|auto]|lra]|eapply D_abs; [exact Da|auto]]|eauto]|].
    unfold rate, rate_from. cbn.
    assert (AB : Rabs (ar t) = (if Rlt_dec (ar t) 0 then -1 else 1) * ar t).
    { destruct (Rlt_dec (ar t) 0); [rewrite Rabs_left|rewrite Rabs_right]; lra. }
    rewrite AB. set (sg := if Rlt_dec (ar t) 0 then -1 else 1). clearbody sg. clear AB.
    set (r := sqrt (q t)) in *. rewrite <- SS.
    assert (R2 : r ^ 2 = (p 0%nat t - p 2%nat t) * (p 0%nat t - p 2%nat t) + (p 1%nat t - p 3%nat t) * (p 1%nat t - p 3%nat t)) by (fold (q t); rewrite <- SS; ring).
    clearbody r. unfold ar. field_simplify_eq; [|lra]. rewrite ?R2. ring.
Qed.

Lemma rate_seq g w : forall k n, (length g <= n)%nat ->
  rate_from k g w = fold_right Rplus 0 (map (fun i => nth (i - k) g 0 * w i) (seq k n)).
Proof.
  induction g as [|d g IH]; intros k n H.
  - simpl rate_from. clear H. generalize (seq k n). intros l. induction l as [|i l IHl]; [reflexivity|].
    cbn [map fold_right]. rewrite <- IHl. destruct (i - k)%nat; simpl; ring.
  - destruct n as [|n]; [simpl in H; lia|]. simpl. rewrite Nat.sub_diag. f_equal.
    rewrite (IH (S k) n) by (simpl in H; lia). f_equal. apply map_ext_in.
    intros i Hi. apply in_seq in Hi. replace (i - k)%nat with (S (i - S k)) by lia. reflexivity.
Qed.
Lemma gradient_length8 (e : expr R) v : (length (snd (compute_rg e v)) <= 8)%nat.
Proof. destruct e; simpl; try lia. unfold lct_rg. destruct (_ =? _)%num; simpl; lia. Qed.

Theorem total_derivative (e : expr R) (p : nat -> R -> R) (w : nat -> R) (t : R) :
  (forall i, derivable_pt_lim (p i) t (w i)) -> nondegenerate e (fun i => p i t) ->
  derivable_pt_lim (fun s => fst (compute_rg e (fun i => p i s))) t
    (fold_right Rplus 0 (map (fun i => nth i (snd (compute_rg e (fun i => p i t))) 0 * w i) (seq 0 8))).
Proof.
  intros Hp Hn. apply is_derive_Reals.
  eapply D_val; [apply path_derivative with (w := w); auto; intros i; apply is_derive_Reals; auto|].
  unfold rate. rewrite (rate_seq _ _ 0 8) by apply gradient_length8. reflexivity || (f_equal; apply map_ext; intros i; now rewrite Nat.sub_0_r).
Qed.

Theorem gradient_partial (e : expr R) (v : nat -> R) : nondegenerate e v ->
  forall i, derivable_pt_lim (fun x => fst (compute_rg e (with_slot v i x))) (v i)
              (nth i (snd (compute_rg e v)) 0).
Proof.
  intros Hn i. apply is_derive_Reals.
  set (p := fun j x => with_slot v i x j).
  assert (Pt : forall j, p j (v i) = v j).
  { intros j. unfold p, with_slot. destruct (Nat.eqb_spec j i); congruence. }
  assert (CE : compute_rg e (fun j => p j (v i)) = compute_rg e v).
  { destruct e; cbn; unfold bpt; rewrite !Pt; reflexivity. }
  eapply D_val.
  - apply (path_derivative e p (fun j => if Nat.eqb j i then 1 else 0) (v i)).
    + intros j. unfold p, with_slot. destruct (Nat.eqb j i); [apply D_id|apply D_const].
    + unfold nondegenerate, slot_point in *. destruct e; cbv zeta in *; rewrite ?Pt; exact Hn.
  - rewrite CE. unfold rate.
    assert (G : forall g k, rate_from k g (fun j => if Nat.eqb j i then 1 else 0) =
      if Nat.leb k i then nth (i - k) g 0 else 0).
    { clear. induction g as [|d g IH]; intros k; simpl.
      - destruct (Nat.leb k i); [destruct (i - k)%nat|]; reflexivity.
      - rewrite IH. destruct (Nat.eqb_spec k i) as [->|Ne].
        + rewrite Nat.leb_refl, Nat.sub_diag. destruct (Nat.leb_spec (S i) i); [lia|ring].
        + destruct (Nat.leb_spec k i), (Nat.leb_spec (S k) i); try lia; [|ring].
          replace (i - k)%nat with (S (i - S k)) by lia. ring. }
    rewrite G. simpl. now rewrite Nat.sub_0_r.
Qed.

Lemma distance_not_derivable d l : ~ derivable_pt_lim
  (fun x => fst (compute_rg (PointPointDistance 0 2 d) (with_slot (fun _ => 0) 0 x))) 0 l.
Proof.
  intros H.
  assert (E : forall x, fst (compute_rg (PointPointDistance 0 2 d) (with_slot (fun _ => 0) 0 x)) = Rabs x - d).
  { intros x. cbn. unfold square. cbn. replace ((x - 0) * (x - 0) + (0 - 0) * (0 - 0)) with (Rsqr x) by (unfold Rsqr; ring).
    now rewrite sqrt_Rsqr_abs. }
  destruct (H (1 / 2)) as [delta Hd]; [lra|].
  pose proof (cond_pos delta) as P.
  pose proof (Hd (delta / 2)) as H1. pose proof (Hd (- (delta / 2))) as H2.
  rewrite !E in H1, H2. rewrite Rplus_0_l, Rabs_R0 in H1, H2.
  assert (N1 : delta / 2 <> 0) by lra. assert (N2 : - (delta / 2) <> 0) by lra.
  specialize (H1 N1). specialize (H2 N2).
  rewrite Rabs_Ropp in H2. rewrite (Rabs_right (delta / 2)) in H1, H2 by lra.
  assert (A : delta / 2 < delta) by lra. specialize (H1 A). specialize (H2 A).
  replace ((delta / 2 - d - (0 - d)) / (delta / 2)) with 1 in H1 by (field; lra).
  replace ((delta / 2 - d - (0 - d)) / - (delta / 2)) with (-1) in H2 by (field; lra).
  apply Rabs_def2 in H1. apply Rabs_def2 in H2. lra.
Qed.
