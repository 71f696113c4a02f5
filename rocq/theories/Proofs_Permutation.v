(** Permutation sequences gather *)
From Coq Require Import List Arith Bool Lia Permutation.
From Verif Require Import Outcome Lib ModelForest.
Import ListNotations.

(* ----- the swaps of one cycle ----- *)

Lemma swap_slice_ok {A} (l : list A) a b :
  a < length l -> b < length l ->
  exists l', swap_slice l (a, b) = Done l' /\ length l' = length l /\
    nth_error l' a = nth_error l b /\ nth_error l' b = nth_error l a /\
    (forall i, i <> a -> i <> b -> nth_error l' i = nth_error l i).
Proof.
  intros Ha Hb. destruct (nth_error_ex _ _ Ha) as [x Hx]. destruct (nth_error_ex _ _ Hb) as [y Hy].
  unfold swap_slice. cbn [fst snd]. rewrite (proj2 (oget_done _ _ _) Hx). cbn [obind].
  rewrite (proj2 (oget_done _ _ _) Hy). cbn [obind].
  eexists; split; [reflexivity|]. rewrite !lset_length. split; [reflexivity|].
  rewrite Hx, Hy. split; [|split].
  - destruct (Nat.eq_dec a b) as [->|N].
    + rewrite nth_error_lset_eq by (rewrite lset_length; lia). congruence.
    + rewrite nth_error_lset_ne by lia. apply nth_error_lset_eq; lia.
  - apply nth_error_lset_eq. rewrite lset_length; lia.
  - intros i N1 N2. rewrite !nth_error_lset_ne by lia. reflexivity.
Qed.

(** [y] comes right after [x] in [l] *)
Definition follows (l : list nat) (x y : nat) : Prop := exists p q, l = p ++ x :: y :: q.

Lemma snoc_last (r : list nat) c0 p x : c0 :: r = p ++ [x] -> x = last r c0.
Proof.
  destruct r as [|r0 r' _] using rev_ind; intros E.
  - destruct p as [|? [|? ?]]; try discriminate. injection E as <-. reflexivity.
  - rewrite last_last. change (c0 :: r' ++ [r0]) with ((c0 :: r') ++ [r0]) in E.
    apply app_inj_tail in E. symmetry; apply E.
Qed.

Lemma cycle_apply {A} c0 rest (l : list A) :
  NoDup (c0 :: rest) -> (forall c, In c (c0 :: rest) -> c < length l) ->
  exists l', ofold swap_slice (map (fun s => (c0, s)) (rev rest)) l = Done l' /\ length l' = length l /\
    (forall x y, follows (c0 :: rest) x y -> nth_error l' x = nth_error l y) /\
    nth_error l' (last rest c0) = nth_error l c0 /\
    (forall i, ~ In i (c0 :: rest) -> nth_error l' i = nth_error l i).
Proof.
  revert l; induction rest as [|z r IH] using rev_ind; intros l Hn Hl.
  - exists l. cbn. split; [reflexivity|]. split; [reflexivity|]. split; [|auto].
    intros x y (p & q & E). destruct p as [|? [|? ?]]; discriminate.
  - rewrite rev_app_distr. cbn [rev app map ofold].
    assert (Nz : NoDup (c0 :: r) /\ ~ In z (c0 :: r)).
    { change (c0 :: r ++ [z]) with ((c0 :: r) ++ [z]) in Hn. apply NoDup_remove in Hn.
      rewrite app_nil_r in Hn. exact Hn. }
    destruct Nz as [Nr Nz].
    destruct (swap_slice_ok l c0 z) as (l1 & E1 & L1 & A1 & B1 & C1).
    { apply Hl; left; reflexivity. } { apply Hl; right; apply in_or_app; right; left; reflexivity. }
    rewrite E1. cbn [obind].
    destruct (IH l1 Nr) as (l2 & E2 & L2 & F2 & G2 & K2).
    { intros c Hc. rewrite L1. apply Hl. destruct Hc as [<-|Hc]; [left; reflexivity|].
      right; apply in_or_app; auto. }
    exists l2. split; [exact E2|]. split; [lia|]. split; [|split].
    + intros x y (p & q & E).
      change (c0 :: r ++ [z]) with ((c0 :: r) ++ [z]) in E.
      destruct q as [|w q _] using rev_ind.
      * change (p ++ [x; y]) with (p ++ [x] ++ [y]) in E. rewrite app_assoc in E.
        apply app_inj_tail in E. destruct E as [E <-].
        rewrite (snoc_last _ _ _ _ E), G2. exact A1.
      * change (p ++ x :: y :: q ++ [w]) with (p ++ (x :: y :: q) ++ [w]) in E. rewrite app_assoc in E.
        apply app_inj_tail in E. destruct E as [E <-].
        rewrite (F2 x y) by (exists p, q; exact E). apply C1.
        -- intros ->. inversion Nr as [|? ? Nc _]; subst. apply Nc.
           destruct p as [|p0 p]; injection E as E0 E; rewrite E; [left; reflexivity|].
           apply in_or_app; right; right; left; reflexivity.
        -- intros ->. apply Nz. rewrite E. apply in_or_app; right; right; left; reflexivity.
    + rewrite last_last. rewrite K2 by exact Nz. exact B1.
    + intros i Hi. rewrite K2. apply C1.
      * intros ->. apply Hi; left; reflexivity.
      * intros ->. apply Hi; right; apply in_or_app; right; left; reflexivity.
      * intros Hc. apply Hi. destruct Hc as [<-|Hc]; [left; reflexivity|].
        right; apply in_or_app; auto.
Qed.

(* ----- collecting one cycle ----- *)

Section Gather.
Context (p : list nat) (Hp : Permutation p (seq 0 (length p))).

Lemma perm_range i j : nth_error p i = Some j -> j < length p.
Proof.
  intros H. apply nth_error_In in H. apply (Permutation_in _ Hp) in H. apply in_seq in H. lia.
Qed.

Lemma perm_inj i k j : nth_error p i = Some j -> nth_error p k = Some j -> i = k.
Proof.
  intros H1 H2. assert (N : NoDup p).
  { eapply Permutation_NoDup; [apply Permutation_sym; exact Hp|apply seq_NoDup]. }
  rewrite NoDup_nth_error in N. apply N; [eapply nth_error_lt; exact H1|congruence].
Qed.

Lemma perm_onto j : j < length p -> exists i, nth_error p i = Some j.
Proof.
  intros H. apply In_nth_error. eapply Permutation_in; [apply Permutation_sym; exact Hp|].
  apply in_seq; lia.
Qed.

Definition marked (seen : list bool) (i : nat) : Prop := nth_error seen i = Some true.

(** Marked indices are those of whole cycles. *)
Definition whole (seen : list bool) : Prop :=
  length seen = length p /\
  forall i j, nth_error p i = Some j -> (marked seen i <-> marked seen j).

(** The path collected so far, oldest first *)
Definition path (seen0 : list bool) (c0 : nat) (rest : list nat) (seen : list bool) (i : nat) : Prop :=
  NoDup (c0 :: rest) /\ (forall c, In c (c0 :: rest) -> c < length p /\ ~ marked seen0 c) /\
  length seen = length p /\
  (forall k, marked seen k <-> marked seen0 k \/ In k (c0 :: rest)) /\
  (forall x y, follows (c0 :: rest) x y -> nth_error p x = Some y) /\
  nth_error p (last rest c0) = Some i.

Lemma count_true_false seen : length seen = count_occ bool_dec seen true + count_occ bool_dec seen false.
Proof. induction seen as [|[|] l IH]; cbn; lia. Qed.

Lemma last_In (rest : list nat) c0 : In (last rest c0) (c0 :: rest).
Proof.
  destruct rest as [|x r _] using rev_ind; [left; reflexivity|].
  rewrite last_last. right; apply in_or_app; right; left; reflexivity.
Qed.

Lemma NoDup_snoc {A} (l : list A) x : NoDup l -> ~ In x l -> NoDup (l ++ [x]).
Proof.
  intros H N. apply (Permutation_NoDup (l := x :: l)); [|constructor; assumption].
  apply Permutation_cons_append.
Qed.

Lemma follows_snoc l z x y : follows (l ++ [z]) x y -> follows l x y \/ (y = z /\ exists l', l = l' ++ [x]).
Proof.
  intros (a & q & E). destruct q as [|w q _] using rev_ind.
  - right. change (a ++ [x; y]) with (a ++ [x] ++ [y]) in E. rewrite app_assoc in E.
    apply app_inj_tail in E. destruct E as [E ->]. split; [reflexivity|exists a; exact E].
  - left. change (a ++ x :: y :: q ++ [w]) with (a ++ (x :: y :: q) ++ [w]) in E. rewrite app_assoc in E.
    apply app_inj_tail in E. exists a, q. apply E.
Qed.

Lemma collect_ok seen0 c0 : whole seen0 -> forall fuel rest seen i,
  path seen0 c0 rest seen i -> length p - length rest <= fuel ->
  exists rest' seen', collect_cycle fuel p seen (rev (c0 :: rest)) i = Done (seen', rev (c0 :: rest')) /\
    path seen0 c0 rest' seen' c0.
Proof.
  intros (W0 & W). induction fuel as [|fuel IH]; intros rest seen i P Hf.
  - exfalso. destruct P as (N & R & _).
    assert (L : length (c0 :: rest) <= length (seq 0 (length p))).
    { apply NoDup_incl_length; [exact N|]. intros c Hc. apply in_seq. destruct (R c Hc). lia. }
    rewrite seq_length in L. cbn [length] in L. lia.
  - cbn [collect_cycle]. destruct P as (N & R & Ls & M & F & T).
    assert (Hi : i < length p) by (eapply perm_range; exact T).
    destruct (nth_error_ex seen i) as [b Hb]; [lia|].
    rewrite (proj2 (oget_done _ _ _) Hb). cbn [obind]. destruct b.
    + assert (Hic : i = c0).
      { destruct (proj1 (M i) Hb) as [Hm|Hm].
        - exfalso. destruct (R (last rest c0) (last_In _ _)) as [_ Hn]. apply Hn.
          apply (proj2 (W _ _ T)). exact Hm.
        - destruct Hm as [<-|Hm]; [reflexivity|]. exfalso.
          destruct (in_split _ _ Hm) as (a & q & E).
          assert (Fx : exists x a', c0 :: a = a' ++ [x]).
          { destruct a as [|y a' _] using rev_ind; [exists c0, []; reflexivity|].
            exists y, (c0 :: a'). reflexivity. }
          destruct Fx as (x & a' & Ex).
          assert (Hx : x = last rest c0).
          { apply perm_inj with (j := i); [|exact T]. apply F. exists a', q.
            rewrite E. change (c0 :: a ++ i :: q) with ((c0 :: a) ++ i :: q). rewrite Ex, <- app_assoc. reflexivity. }
          (* the last of [c0 :: rest] would occur before [i] *)
          assert (El : In (last rest c0) (i :: q)).
          { rewrite E. destruct q as [|w q' _] using rev_ind; [rewrite last_last; left; reflexivity|].
            change (a ++ i :: q' ++ [w]) with (a ++ (i :: q') ++ [w]). rewrite app_assoc, last_last.
            right; apply in_or_app; right; left; reflexivity. }
          assert (N' : NoDup (a' ++ x :: i :: q)).
          { rewrite E in N. change (c0 :: a ++ i :: q) with ((c0 :: a) ++ i :: q) in N.
            rewrite Ex, <- app_assoc in N. exact N. }
          apply NoDup_remove_2 in N'. apply N'. apply in_or_app; right. rewrite Hx. exact El. }
      subst i. exists rest, seen. split; [reflexivity|].
      split; [exact N|]. split; [exact R|]. split; [exact Ls|]. split; [exact M|]. split; [exact F|exact T].
    + rewrite oset_ok by lia. cbn [obind]. destruct (nth_error_ex p i Hi) as [j Hj].
      rewrite (proj2 (oget_done _ _ _) Hj). cbn [obind].
      assert (Hni : ~ marked seen0 i /\ ~ In i (c0 :: rest)).
      { split; intros Hm; assert (marked seen i) as Hm' by (apply M; auto); unfold marked in Hm'; congruence. }
      assert (E : i :: rev (c0 :: rest) = rev (c0 :: rest ++ [i])).
      { cbn [rev]. rewrite rev_app_distr. reflexivity. }
      rewrite E. apply IH.
      * split; [change (NoDup ((c0 :: rest) ++ [i])); apply NoDup_snoc; [exact N|apply Hni]|].
        split.
        { intros c Hc. change (In c ((c0 :: rest) ++ [i])) in Hc. apply in_app_or in Hc.
          destruct Hc as [Hc|[<-|[]]]; [apply R; exact Hc|]. split; [exact Hi|apply Hni]. }
        split; [rewrite lset_length; exact Ls|]. split; [|split].
        -- intros k. change (c0 :: rest ++ [i]) with ((c0 :: rest) ++ [i]). rewrite in_app_iff.
           unfold marked at 1. rewrite nth_error_lset by lia.
           destruct (Nat.eqb_spec i k) as [->|Hk].
           ++ split; [intros _; right; right; left; reflexivity|intros _; destruct (Nat.ltb_spec k (length seen)); [reflexivity|lia]].
           ++ change (nth_error seen k = Some true) with (marked seen k). rewrite M. split.
              ** intros [H|H]; auto.
              ** intros [H|[H|[H|[]]]]; auto. congruence.
        -- intros x y Hxy. change (c0 :: rest ++ [i]) with ((c0 :: rest) ++ [i]) in Hxy.
           apply follows_snoc in Hxy. destruct Hxy as [Hxy|[-> [l' El]]]; [apply F; exact Hxy|].
           rewrite (snoc_last _ _ _ _ El). exact T.
        -- rewrite last_last. exact Hj.
      * rewrite app_length. cbn [length]. lia.
Qed.

(* ----- all cycles ----- *)

Definition count (seen : list bool) : nat := count_occ bool_dec seen true.

Lemma count_set seen i : nth_error seen i = Some false -> count (lset seen i true) = S (count seen).
Proof.
  revert i; induction seen as [|b l IH]; intros [|i] H; cbn in H; try discriminate.
  - injection H as ->. reflexivity.
  - cbn [lset]. unfold count in *. cbn [count_occ]. rewrite IH by exact H. destruct (bool_dec b true); reflexivity.
Qed.

Lemma count_le seen : count seen <= length seen.
Proof. unfold count. induction seen as [|b l IH]; cbn; [lia|]. destruct (bool_dec b true); lia. Qed.

(** Marking new indices counts them. *)
Lemma count_marks l : forall seen seen',
  length seen' = length seen -> NoDup l -> (forall c, In c l -> c < length seen /\ ~ marked seen c) ->
  (forall k, marked seen' k <-> marked seen k \/ In k l) -> count seen' = count seen + length l.
Proof.
  induction l as [|c l IH]; intros seen seen' L N R M.
  - replace seen' with seen; [cbn; lia|]. apply nth_error_ext. intros k.
    specialize (M k). unfold marked in M. cbn [In] in M.
    destruct (nth_error seen k) as [b|] eqn:E1, (nth_error seen' k) as [b'|] eqn:E2.
    + destruct b, b'; try reflexivity; exfalso.
      * discriminate (proj2 M (or_introl eq_refl)).
      * destruct (proj1 M eq_refl) as [H|[]]; discriminate H.
    + exfalso. apply nth_error_lt in E1. apply nth_error_None in E2. lia.
    + exfalso. apply nth_error_lt in E2. apply nth_error_None in E1. lia.
    + reflexivity.
  - inversion N as [|? ? Nc Nl]; subst. destruct (R c (or_introl eq_refl)) as [Hc Nm].
    assert (E : nth_error seen c = Some false).
    { destruct (nth_error_ex _ _ Hc) as [[|] Hb]; [contradiction|exact Hb]. }
    specialize (IH (lset seen c true) seen'). rewrite (count_set _ _ E) in IH. cbn [length].
    rewrite IH; [lia|rewrite lset_length; exact L|exact Nl| |].
    + intros k Hk. rewrite lset_length. split; [apply R; right; exact Hk|].
      intros Hm. unfold marked in Hm. rewrite nth_error_lset_ne in Hm by (intros ->; contradiction).
      apply (R k); [right; exact Hk|exact Hm].
    + intros k. rewrite M. unfold marked at 2. rewrite nth_error_lset.
      destruct (Nat.eqb_spec c k) as [->|Hk]; cbn [In].
      * destruct (Nat.ltb_spec k (length seen)); [|lia]. tauto.
      * unfold marked. tauto.
Qed.

Definition gathers {A} (seen : list bool) (a a' : list A) : Prop :=
  length a' = length a /\
  (forall i j, marked seen i -> nth_error p i = Some j -> nth_error a' i = nth_error a j) /\
  (forall i, ~ marked seen i -> nth_error a' i = nth_error a i).

Definition gathered (seen : list bool) (swaps : list (nat * nat)) : Prop :=
  whole seen /\ length swaps <= count seen /\
  forall A (a : list A), length p <= length a ->
    exists a', ofold swap_slice swaps a = Done a' /\ gathers seen a a'.

Lemma gather_step_ok seen swaps i :
  gathered seen swaps -> i < length p ->
  exists seen' swaps', gather_step p (seen, swaps) i = Done (seen', swaps') /\
    gathered seen' swaps' /\ marked seen' i /\ (forall k, marked seen k -> marked seen' k).
Proof.
  intros (Wh & Lc & G) Hi. unfold gather_step. cbn [collect_cycle].
  pose proof Wh as (Ls & W).
  destruct (nth_error_ex seen i) as [b Hb]; [lia|].
  rewrite (proj2 (oget_done _ _ _) Hb). cbn [obind]. destruct b.
  - cbn [obind]. unfold cycle_swaps. cbn [rev]. rewrite app_nil_r.
    exists seen, swaps. split; [reflexivity|]. split; [exact (conj Wh (conj Lc G))|]. split; [exact Hb|auto].
  - rewrite oset_ok by lia. cbn [obind]. destruct (nth_error_ex p i Hi) as [j Hj].
    rewrite (proj2 (oget_done _ _ _) Hj). cbn [obind].
    assert (Nm : ~ marked seen i) by (unfold marked; congruence).
    destruct (collect_ok seen i Wh (length p) [] (lset seen i true) j) as (rest & seen' & E & P).
    { split; [repeat constructor; intros []|]. split.
      { intros c [<-|[]]. split; [exact Hi|exact Nm]. }
      split; [rewrite lset_length; exact Ls|]. split; [|split].
      - intros k. unfold marked at 1. rewrite nth_error_lset.
        destruct (Nat.eqb_spec i k) as [->|Hk]; cbn [In].
        + destruct (Nat.ltb_spec k (length seen)); [|lia]. tauto.
        + unfold marked. tauto.
      - intros x y (a & q & E). destruct a as [|? [|? ?]]; discriminate.
      - exact Hj. }
    { cbn [length]; lia. }
    change (rev [i]) with [i] in E. rewrite E. cbn [obind].
    unfold cycle_swaps. rewrite rev_involutive.
    eexists; eexists; split; [reflexivity|].
    destruct P as (N & R & Ls' & M & F & T).
    split; [|split; [apply M; right; left; reflexivity|intros k Hk; apply M; left; exact Hk]].
    split; [|split].
    + split; [exact Ls'|]. intros x y Hxy. rewrite !M. 
      assert (Q : In x (i :: rest) <-> In y (i :: rest)).
      { split.
        - intros Hx. destruct (in_split _ _ Hx) as (a & q & Ex). destruct q as [|w q].
          + pose proof (snoc_last _ _ _ _ Ex). subst x. left. congruence.
          + assert (Some w = Some y) by (rewrite <- Hxy; symmetry; apply F; exists a, q; exact Ex).
            assert (w = y) by congruence. subst w. rewrite Ex. apply in_or_app; right; right; left; reflexivity.
        - intros Hy. destruct Hy as [<-|Hy].
          + rewrite (perm_inj _ _ _ Hxy T). apply last_In.
          + destruct (in_split _ _ Hy) as (a & q & Ey).
            assert (Fx : exists z a', i :: a = a' ++ [z]).
            { destruct a as [|y' a' _] using rev_ind; [exists i, []; reflexivity|].
              exists y', (i :: a'). reflexivity. }
            destruct Fx as (z & a' & Ez).
            assert (El : i :: rest = a' ++ z :: y :: q).
            { rewrite Ey. change (i :: a ++ y :: q) with ((i :: a) ++ y :: q). rewrite Ez, <- app_assoc. reflexivity. }
            assert (Hz : nth_error p z = Some y) by (apply F; exists a', q; exact El).
            rewrite (perm_inj _ _ _ Hxy Hz), El. apply in_or_app; right; left; reflexivity. }
      rewrite Q. split; (intros [H|H]; [left; apply (W _ _ Hxy); exact H|right; exact H]).
    + rewrite app_length, map_length, rev_length.
      rewrite (count_marks (i :: rest) seen seen'); [cbn [length]; lia|lia|exact N| |exact M].
      intros c Hc. rewrite Ls. apply R; exact Hc.
    + intros A a La. destruct (G A a La) as (a1 & E1 & L1 & G1 & K1).
      destruct (cycle_apply i rest a1 N) as (a2 & E2 & L2 & F2 & T2 & K2).
      { intros c Hc. rewrite L1. destruct (R c Hc). lia. }
      exists a2. rewrite ofold_app, E1. cbn [obind]. split; [exact E2|].
      assert (A1 : forall c, In c (i :: rest) -> nth_error a1 c = nth_error a c).
      { intros c Hc. apply K1. apply R; exact Hc. }
      split; [lia|]. split.
      * intros x y Hx Hxy. apply M in Hx. destruct Hx as [Hx|Hx].
        -- rewrite K2; [apply G1; assumption|]. intros Hc. apply (R x Hc). exact Hx.
        -- destruct (in_split _ _ Hx) as (b & q & Ex). destruct q as [|w q].
           ++ pose proof (snoc_last _ _ _ _ Ex). subst x. rewrite T2. rewrite A1 by (left; reflexivity). f_equal. congruence.
           ++ assert (Fw : follows (i :: rest) x w) by (exists b, q; exact Ex).
              assert (w = y) by (apply F in Fw; congruence). subst w.
              rewrite (F2 x y Fw). apply A1. rewrite Ex. apply in_or_app; right; right; left; reflexivity.
      * intros k Hk. rewrite K2.
        -- apply K1. intros Hm. apply Hk. apply M; left; exact Hm.
        -- intros Hc. apply Hk. apply M; right; exact Hc.
Qed.

Lemma gather_ok : exists q, build_for_gather_permutation p = Done q /\ ps_len q = length p /\
  length (ps_swaps q) <= length p /\
  forall A (a : list A), length p <= length a -> exists a', permute_slice q a = Done a' /\
    length a' = length a /\
    (forall i j, nth_error p i = Some j -> nth_error a' i = nth_error a j) /\
    (forall i, length p <= i -> nth_error a' i = nth_error a i).
Proof.
  destruct (ofold_ok_prefix
    (fun done st => gathered (fst st) (snd st) /\ forall i, In i done -> marked (fst st) i)
    (gather_step p) p) with (s := (repeat false (length p), @nil (nat * nat)))
    as ([seen swaps] & E & (Wh & Lc & G) & M).
  - intros done i rest' [seen swaps] El (Hg & Hm). cbn [fst snd] in Hg, Hm.
    destruct (gather_step_ok seen swaps i) as (seen' & swaps' & E & Hg' & Hi & Hk); [exact Hg| |].
    { assert (Hin : In i p) by (rewrite El; apply in_or_app; right; left; reflexivity).
      apply (Permutation_in _ Hp) in Hin. apply in_seq in Hin. lia. }
    exists (seen', swaps'). split; [exact E|]. cbn [fst snd]. split; [exact Hg'|].
    intros k Hkd. apply in_app_or in Hkd. destruct Hkd as [Hkd|[<-|[]]]; auto.
  - cbn [fst snd]. split; [|intros i []]. split; [|split].
    + split; [apply repeat_length|]. intros i j Hij. unfold marked. rewrite !nth_error_repeat.
      split; intros H.
      * destruct (i <? length p); discriminate.
      * destruct (j <? length p); discriminate.
    + cbn [length]. lia.
    + intros A a _. exists a. split; [reflexivity|]. split; [reflexivity|].
      split; [|reflexivity]. intros i j Hm. unfold marked in Hm. rewrite nth_error_repeat in Hm.
      destruct (i <? length p); discriminate.
  - cbn [fst snd] in Wh, Lc, G, M. unfold build_for_gather_permutation. rewrite E. cbn [obind].
    eexists; split; [reflexivity|]. cbn [ps_len ps_swaps]. split; [reflexivity|].
    split; [pose proof (count_le seen); destruct Wh; lia|].
    intros A a La. unfold permute_slice. cbn [ps_len ps_swaps].
    destruct (Nat.leb_spec (length p) (length a)) as [_|]; [|lia]. cbn [oassert obind].
    destruct (G A a La) as (a' & E' & L' & G' & K'). exists a'. split; [exact E'|]. split; [exact L'|].
    split.
    + intros i j Hij. apply G'; [|exact Hij]. apply M.
      apply (Permutation_in _ (Permutation_sym Hp)). apply in_seq. apply nth_error_lt in Hij. lia.
    + intros i Hi. apply K'. intros Hm. apply nth_error_lt in Hm. destruct Wh; lia.
Qed.
End Gather.
