(** * History lemmas and witnesses for the time stepping properties *)
From Coq Require Import ZArith QArith Reals Qreals Bool List Lra Lia String.
From Verif Require Import Num NumQ Model_TimeStepping Spec_TimeStepping Transfer_TimeStepping
  Proofs_TimeStepping.
Import ListNotations.
Local Open Scope R_scope.

Lemma time_loop_none k (c : clock RNum) : time_loop (fun _ => None) k c = next_n k c.
Proof. induction k as [|k IH]; [reflexivity|]. rewrite next_n_S, <- IH. reflexivity. Qed.

(** in a run of next() without requests the minimal step size is never read *)
Definition set_min (c : clock RNum) (m : R) : clock RNum := {|
  start_val := start_val c; final_val := final_val c; scheme_val := scheme_val c;
  start_step_val := start_step_val c; max_step_val := max_step_val c;
  min_step_val := (m : RNum);
  current_step_val := current_step_val c; last_step_val := last_step_val c;
  step_val := step_val c;
  weight_val := weight_val c; weight_old_val := weight_old_val c;
  weight_old_old_val := weight_old_old_val c;
  factor_extrapol_old := factor_extrapol_old c;
  factor_extrapol_old_old := factor_extrapol_old_old c;
  step_no_val := step_no_val c; at_end_val := at_end_val c; weight_changed := weight_changed c;
  now_val := now_val c; prev_val := prev_val c; tau1_val := tau1_val c; tau2_val := tau2_val c |}.
Lemma set_min_next_n m n c : next_n n (set_min c m) = set_min (next_n n c) m.
Proof. revert c; induction n as [|n IH]; intros c; [reflexivity|]. cbn [next_n]. rewrite <- IH. reflexivity. Qed.

Lemma plain_loop_terminates (p : ts_params RNum) :
    (0 < tp_step_start p)%R -> (0 < tp_step_max p)%R -> (tp_start p < tp_end p)%R ->
    exists n, (INR n <= (tp_end p - tp_start p) / Rmin (tp_step_start p) (tp_step_max p) + 1)%R /\
      at_end (next_n n (ts_init p)) = true /\ now (next_n n (ts_init p)) = tp_end p /\
      forall k, (k < n)%nat -> at_end (next_n k (ts_init p)) = false.
Proof.
  intros H1 H2 H3. set (m := Rmin (tp_step_start p) (tp_step_max p)).
  assert (Hm : 0 < m) by (unfold m; apply Rmin_glb_lt; assumption).
  destruct (loop_terminates m (fun _ => None) (set_min (ts_init p) m)) as (n & _ & A & B & C & D).
  - constructor; cbn; auto; try apply Rle_refl; unfold m; (apply Rmin_l || apply Rmin_r).
  - reflexivity.
  - exact H3.
  - exists n. rewrite time_loop_none, set_min_next_n in B, C.
    repeat split; auto. intros k Hk. destruct (D k Hk) as [X _].
    rewrite time_loop_none, set_min_next_n in X. exact X.
Qed.

Lemma run_consts (p : ts_params RNum) h : plain h ->
  let c := run (ts_init p) h in
  start_val c = tp_start p /\ final_val c = tp_end p /\ scheme_val c = tp_scheme p /\
  max_step_val c = tp_step_max p /\ min_step_val c = tp_step_min p.
Proof.
  intros Hp. assert (K : keeps_interval h).
  { unfold plain, keeps_interval in *. rewrite forallb_forall in *. intros o Ho.
    specialize (Hp o Ho). destruct o; auto; discriminate. }
  destruct (keeps_consts p h (ts_init p) K) as (A & B & C & D & E & F & _); auto.
Qed.

Lemma desired_control (p : ts_params RNum) (h : list (op RNum)) (d : R) :
    (tp_step_min p <= tp_step_max p)%R -> plain h ->
    let c := run (ts_init p) h in
    let c1 := set_desired_time_step c d in
    (tp_step_min p <= step_size c1 <= tp_step_max p)%R /\
    ((0 < step_size c)%R -> now c <> 0%R ->
      exists s, is_clamp (step_size c / 2) (2 * step_size c) d s /\
                is_clamp (tp_step_min p) (tp_step_max p) s (step_size c1)) /\
    (at_end c = false -> at_end (next c1) = false -> step_size (next c1) = step_size c1) /\
    (at_end c = false -> (0 < step_size c1)%R -> at_end (next c1) = true ->
       (step_size (next c1) <= 1.01 * step_size c1)%R).
Proof.
  intros Hm Hp c c1. destruct (run_consts p h Hp) as (A & B & C & D & E).
  fold c in A, B, C, D, E. rewrite <- D, <- E in *.
  split; [apply desired_bounds; auto|]. split; [apply desired_clamp; auto|].
  split; intros He; apply (desired_next c d He Hm).
Qed.

Record good (p : ts_params RNum) (k : nat) (c : clock RNum) : Prop := {
  g_cur : 0 < current_step_val c; g_step : 0 < step_val c;
  g_max : 0 < max_step_val c; g_min : 0 < min_step_val c;
  g_start : start_val c = tp_start p; g_final : final_val c = tp_end p;
  g_scheme : scheme_val c = tp_scheme p;
  g_now : now_val c <= tp_end p;
  g_nend : at_end_val c = false -> now_val c < tp_end p;
  g_zero : k = O -> now_val c = tp_start p;
  g_pos : (0 < k)%nat -> tp_start p < now_val c;
  g_woo : now_val c = tp_start p \/ tp_scheme p <> bdf_2 -> weight_old_old_val c = 0 }.

Lemma good_lower p k c : good p k c ->
  exists m, lower m c.
Proof.
  intros [H1 H2 H3 H4 _ _ _ _ _ _ _ _].
  exists (Rmin (Rmin (current_step_val c) (step_val c)) (Rmin (max_step_val c) (min_step_val c))).
  constructor; unfold Rmin; rcase; lra.
Qed.

Lemma good_next p k c : good p k c -> at_end c = false ->
  good p (S k) (next c) /\ 0 < step_size (next c).
Proof.
  intros G He. destruct (good_lower p k c G) as [m L].
  assert (Hstep : 0 < step_size (next c)).
  { apply (next_n_positive m c 1); auto.
    - intros j Hj. assert (j = O) by lia; subst; exact He.
    - unfold now, ts_final. rewrite (g_final _ _ _ G). apply (g_nend _ _ _ G). exact He. }
  split; [|exact Hstep].
  assert (Hinc : now_val c < now_val (next c)).
  { pose proof (next_step_diff c) as X. unfold now in X. unfold step_size in X, Hstep. lra. }
  destruct (at_end (next c)) eqn:En.
  - destruct (next_end_exact c He En) as [X Y]. 
    assert (Xf : now_val (next c) = tp_end p).
    { unfold now, ts_final in X. rewrite X. apply (g_final _ _ _ G). }
    destruct G. constructor; try assumption.
    + rewrite Xf. apply Rle_refl.
    + intros Hx. unfold at_end in En. congruence.
    + discriminate.
    + intros _. destruct k; [rewrite <- g_zero0; auto|]. specialize (g_pos0 ltac:(lia)). lra.
    + intros [Hs|Hs].
      * exfalso. destruct k; [specialize (g_zero0 eq_refl); lra|].
        specialize (g_pos0 ltac:(lia)). lra.
      * change (weight_old_old (run c [Next]) = 0). rewrite woo_not_bdf; [apply g_woo0; auto|].
        unfold ts_scheme; congruence.
  - destruct (lower_next m c L En) as (_ & _ & Z). unfold now, ts_final in Z.
    pose proof (lo_pos _ _ L) as Hm.
    destruct G. rewrite g_final0 in Z.
    constructor; try assumption.
    + lra.
    + intros _. lra.
    + discriminate.
    + intros _. destruct k; [rewrite <- g_zero0; auto|]. specialize (g_pos0 ltac:(lia)). lra.
    + intros [Hs|Hs].
      * exfalso. destruct k; [specialize (g_zero0 eq_refl); lra|].
        specialize (g_pos0 ltac:(lia)). lra.
      * change (weight_old_old (run c [Next]) = 0). rewrite woo_not_bdf; [apply g_woo0; auto|].
        unfold ts_scheme; congruence.
Qed.

Lemma good_run p h : well_posed p -> plain h -> positive_requests h -> legal (ts_init p) h ->
  good p (number_of_next h) (run (ts_init p) h).
Proof.
  intros (W1 & W2 & W3 & W4).
  assert (G : forall k c, good p k c -> plain h -> positive_requests h -> legal c h ->
            good p (k + number_of_next h) (run c h)).
  { induction h as [|o h IH]; intros k c Gc Hp Hr Hl.
    - cbn [number_of_next]. rewrite Nat.add_0_r. exact Gc.
    - apply plain_cons in Hp as [Ho Hp]. inversion Hr as [|x l Hr1 Hr2]; subst.
      destruct Hl as [Hl1 Hl2]. unfold run in *; cbn [fold_left].
      destruct o; try discriminate; cbn [apply_op number_of_next] in *.
      + replace (k + S (number_of_next h))%nat with (S k + number_of_next h)%nat by lia.
        apply IH; auto. apply good_next; auto.
      + apply IH; auto. destruct Gc; constructor; cbn [set_time_step with_step]; auto.
      + assert (Hd : 0 < desired_step c v).
        { destruct (good_lower _ _ _ Gc) as [m L]. pose proof (desired_lower m c v L).
          destruct L; lra. }
        apply IH; auto. destruct Gc; constructor; cbn [set_desired_time_step with_step]; auto. }
  intros Hp Hr Hl. apply (G O); auto.
  constructor; cbn; auto; try lra; try lia.
Qed.

Lemma legal_app {N : Num} (c : clock N) h1 h2 : legal c (h1 ++ h2) <-> legal c h1 /\ legal (run c h1) h2.
Proof.
  revert c; induction h1 as [|o h IH]; intros c; cbn [legal app].
  - tauto.
  - unfold run in *; cbn [fold_left]. rewrite IH. tauto.
Qed.

Lemma bdf2_history (p : ts_params RNum) (h : list (op RNum)) :
    tp_scheme p = bdf_2 -> well_posed p -> plain h -> positive_requests h ->
    legal (ts_init p) (h ++ [Next; Next]) ->
    let c0 := run (ts_init p) h in let c1 := next c0 in let c2 := next c1 in
    exists w, (0 < w)%R /\
      (forall a b d, w * quad a b d (now c2) + weight_old c2 * quad a b d (now c1)
         + weight_old_old c2 * quad a b d (now c0) = quad' a b d (now c2))%R /\
      (Rabs (weight c2 - w) <= w / 1000000000000)%R /\
      (weight_has_changed c2 = true -> weight c2 = w).
Proof.
  intros Hs W Hp Hr Hl c0 c1 c2. apply legal_app in Hl as [Hl1 Hl2].
  pose proof (good_run p h W Hp Hr Hl1) as G0. fold c0 in G0, Hl2.
  destruct Hl2 as [E0 [E1 _]]. cbn [apply_op] in E1.
  destruct (good_next _ _ _ G0 (E0 eq_refl)) as [G1 P1]. fold c1 in G1, P1, E1.
  destruct (good_next _ _ _ G1 (E1 eq_refl)) as [G2 P2]. fold c2 in G2, P2.
  apply bdf2_exact; auto.
  - unfold ts_scheme. rewrite (g_scheme _ _ _ G0). exact Hs.
  - pose proof (g_pos _ _ _ G1 ltac:(lia)) as X. pose proof (g_start _ _ _ G0) as Y.
    unfold ts_start. rewrite Y. unfold now. fold c1. apply Rgt_not_eq. exact X.
Qed.

Lemma first_step_euler (p : ts_params RNum) : well_posed p ->
    let c0 := ts_init p in let c1 := next c0 in
    weight_old_old c1 = 0%R /\
    exists w, (0 < w)%R /\
      (forall a b, w * (a + b * now c1) + weight_old c1 * (a + b * now c0) = b)%R /\
      (Rabs (weight c1 - w) <= w / 1000000000000)%R.
Proof.
  intros W c0 c1.
  pose proof (good_run p [] W eq_refl (Forall_nil _) I) as G.
  destruct (good_next _ _ _ G eq_refl) as [G1 P1].
  assert (U : next_uses_bdf c0 = false).
  { unfold next_uses_bdf, not_at_start, c0; cbn. destruct (Reqb_spec (tp_start p) (tp_start p)) as [_|X];
      [rewrite andb_false_r; reflexivity | congruence]. }
  split.
  - unfold weight_old_old, c1; cbn [next weight_old_old_val]. unfold next_weight_old_old. rewrite U.
    unfold c0; cbn. apply RMicromega.Q2R_0.
  - destruct (first_step_weights c0 U P1) as (w & A & B & C & D). exists w; auto.
Qed.

Lemma weights_sum_history (p : ts_params RNum) (h : list (op RNum)) :
    well_posed p -> plain h -> positive_requests h -> legal (ts_init p) (h ++ [Next]) ->
    let c := next (run (ts_init p) h) in
    exists w, (0 < w)%R /\ (w + weight_old c + weight_old_old c = 0)%R /\
      (Rabs (weight c - w) <= w / 1000000000000)%R /\
      (weight_has_changed c = true -> weight c = w).
Proof.
  intros W Hp Hr Hl c. apply legal_app in Hl as [Hl1 Hl2].
  pose proof (good_run p h W Hp Hr Hl1) as G. destruct Hl2 as [E0 _].
  destruct (good_next _ _ _ G (E0 eq_refl)) as [G1 P1].
  apply weights_sum_zero; auto.
  - intros _ _. apply (g_cur _ _ _ G).
  - intros _ X. apply (g_woo _ _ _ G). left. unfold now, ts_start in X. rewrite X.
    apply (g_start _ _ _ G).
  - intros X. apply (g_woo _ _ _ G). right. rewrite <- (g_scheme _ _ _ G). exact X.
Qed.

Lemma extrapolation_history (p : ts_params RNum) (h : list (op RNum)) :
    well_posed p -> plain h -> positive_requests h -> legal (ts_init p) (h ++ [Next; Next]) ->
    let c0 := run (ts_init p) h in let c1 := next c0 in let c2 := next c1 in
    ((1 < step_no c1)%Z ->
      forall a b, (extrapolate c2 (a + b * now c1) (a + b * now c0) = a + b * now c2)%R) /\
    ((step_no c0 <= 1)%Z -> forall u v, extrapolate c1 u v = u) /\
    (forall u, extrapolate c2 u u = u).
Proof.
  intros W Hp Hr Hl c0 c1 c2. apply legal_app in Hl as [Hl1 Hl2].
  pose proof (good_run p h W Hp Hr Hl1) as G0. fold c0 in G0, Hl2.
  destruct Hl2 as [E0 [E1 _]]. cbn [apply_op] in E1.
  destruct (good_next _ _ _ G0 (E0 eq_refl)) as [G1 P1]. fold c1 in G1, P1, E1.
  assert (Hn : now c1 <> ts_start c0).
  { pose proof (g_pos _ _ _ G1 ltac:(lia)) as X. pose proof (g_start _ _ _ G0) as Y.
    unfold ts_start. rewrite Y. apply Rgt_not_eq. exact X. }
  split; [|split].
  - intros Hk a b. apply extrapolate_linear; auto. fold c1. lra.
  - intros Hk u v. apply extrapolate_first; auto.
  - intros u. apply extrapolate_sum. left.
    unfold next_last, not_at_start. rnum. 
    destruct (Reqb_spec (now_val c1) (start_val c1)) as [X|X]; [exfalso; apply Hn; exact X|].
    cbn [negb]. unfold step_size in P1. lra.
Qed.

Lemma restart_fresh (N : Num) (p : ts_params N) (h1 h2 : list (op N)) :
    keeps_interval h1 -> keeps_interval h2 ->
    nltb (ndiv (nsub (tp_end p) (tp_start p)) (tp_step_start p)) (nlit (1 # 100000000000000)) = false ->
    let a := run (restart (run (ts_init p) h1)) h2 in
    let b := run (ts_init p) h2 in
    (now a = now b /\ step_size a = step_size b /\ old_step_size a = old_step_size b /\
     step_no a = step_no b /\ at_end a = at_end b /\ ts_start a = ts_start b /\
     ts_final a = ts_final b /\ tau1 a = tau1 b /\ tau2 a = tau2 b) /\
    (previous (next a) = previous (next b) /\ weight_old (next a) = weight_old (next b) /\
     (forall u v, extrapolate (next a) u v = extrapolate (next b) u v)) /\
    (tp_scheme p = bdf_2 -> neqb (now b) (ts_start b) = false ->
       weight_old_old (next a) = weight_old_old (next b)) /\
    (tp_scheme p <> bdf_2 -> weight_old_old a = weight_old_old b).
Proof.
  intros K1 K2 He a b.
  pose proof (restart_same_core p h1 K1 He) as S0.
  assert (S : same_core a b) by (apply same_core_run; auto).
  pose proof (same_core_after_next _ a b S) as (A & B & C & D & E).
  destruct S as [e1 e2 e3 e4 e5 e6 e7 e8 e9 e10 e11 e12 e13 e14].
  assert (Sb : scheme_val b = tp_scheme p).
  { unfold b. destruct (keeps_consts p h2 (ts_init p) K2) as (_ & _ & X & _); auto. }
  split; [repeat split; assumption|].
  split; [split; [exact A|split; [exact B|]]|].
  - intros u v. unfold extrapolate. rewrite C, D. reflexivity.
  - split.
    + intros Hs Hn. apply E.
      * unfold ts_scheme. congruence.
      * unfold now, ts_start in *. rewrite e12, e1. exact Hn.
    + intros Hs. unfold a, b. rewrite !woo_not_bdf; auto.
      * change (weight_old_old (restart (run (ts_init p) h1))) with (weight_old_old (run (ts_init p) h1)).
        apply woo_not_bdf; auto.
      * unfold ts_scheme; cbn [restart scheme_val].
        destruct (keeps_consts p h1 (ts_init p) K1) as (_ & _ & X & _); auto. rewrite X. exact Hs.
Qed.

Lemma scheme_constants (p : ts_params RNum) (h : list (op RNum)) :
    let c := run (ts_init p) h in
    (tau1 c + tau2 c = 1)%R /\
    (tp_scheme p = implicit_euler \/ tp_scheme p = bdf_2 -> tau1 c = 1%R) /\
    (tp_scheme p = explicit_euler -> tau1 c = 0%R) /\
    (tp_scheme p = crank_nicolson -> tau1 c = (1/2)%R) /\
    ts_scheme c = tp_scheme p.
Proof.
  intros c. destruct (tau_const (ts_init p) h) as (A & B & C & _). fold c in A, B, C.
  rewrite A, B, C. unfold tau1, tau2, ts_scheme; cbn [ts_init tau1_val tau2_val scheme_val].
  destruct (tp_scheme p); cbn; unfold Q2R; cbn;
    repeat split; intros; try discriminate; try lra; try (destruct H; discriminate).
Qed.

Lemma name_injective (N : Num) (p1 p2 : ts_params N) (h1 h2 : list (op N)) :
    name (run (ts_init p1) h1) = name (run (ts_init p2) h2) <-> tp_scheme p1 = tp_scheme p2.
Proof.
  destruct (tau_const (ts_init p1) h1) as (_ & _ & _ & A).
  destruct (tau_const (ts_init p2) h2) as (_ & _ & _ & B). rewrite A, B.
  unfold name; cbn [ts_init scheme_val].
  destruct (tp_scheme p1), (tp_scheme p2); cbn; split; intros; congruence.
Qed.

(** ** Witnesses, evaluated over Q *)
Lemma legal_map_gen (c : clock QNum) (h : list (op QNum)) :
  legal c h -> legal (qclk c) (map qop h).
Proof.
  revert c; induction h as [|o h IH]; intros c; cbn [legal map]; auto.
  intros [H1 H2]. split.
  - intros E. apply H1. destruct o; try discriminate; reflexivity.
  - rewrite <- (@map_apply QNum RNum Q2R Q2R_hom). apply IH, H2.
Qed.
Lemma legal_map_init (p : ts_params QNum) (h : list (op QNum)) :
  legal (ts_init p) h -> legal (ts_init (qparams p)) (map qop h).
Proof. intros H. rewrite <- (@map_init QNum RNum Q2R Q2R_hom). apply legal_map_gen, H. Qed.
Lemma map_next_desired (c : clock QNum) d :
  next (set_desired_time_step (qclk c) (Q2R d)) =
  qclk (next (set_desired_time_step c d)).
Proof.
  rewrite (@map_next QNum RNum Q2R Q2R_hom). f_equal.
  unfold set_desired_time_step. rewrite (@map_desired QNum RNum Q2R Q2R_hom). reflexivity.
Qed.

Ltac qclock p :=
  cbv zeta; rewrite <- ?(@map_init QNum RNum Q2R Q2R_hom p), <- ?(@map_next QNum RNum Q2R Q2R_hom), <- ?(@map_run QNum RNum Q2R Q2R_hom),
    <- ?(@map_restart QNum RNum Q2R Q2R_hom), <- ?(@map_next QNum RNum Q2R Q2R_hom), ?map_next_desired,
    <- ?(@map_next QNum RNum Q2R Q2R_hom).

Definition q_b : ts_params QNum := MkTP (N:=QNum) bdf_2 0%Q 10%Q 1%Q 5%Q (1#10)%Q.

Lemma bdf2_refuted :
  exists (p : ts_params RNum) (v : R),
    tp_scheme p = bdf_2 /\
    let c0 := ts_init p in let c1 := next c0 in let c2 := next (set_desired_time_step c1 v) in
    at_end c2 = false /\ (0 < step_size c1)%R /\ (0 < step_size c2)%R /\
    weight_has_changed c2 = true /\ old_step_size c2 <> step_size c1 /\
    (weight c2 * quad 0 0 1 (now c2) + weight_old c2 * quad 0 0 1 (now c1)
         + weight_old_old c2 * quad 0 0 1 (now c0) <> quad' 0 0 1 (now c2))%R.
Proof.
  exists (qparams q_b), (Q2R 2%Q). split; [reflexivity|].
  qclock q_b.
  set (c1 := next (ts_init q_b)).
  set (c2 := next (set_desired_time_step c1 2%Q)).
  unfold step_size, old_step_size, weight, weight_old, weight_old_old, now, at_end, weight_has_changed.
  cbn [map_clock current_step_val last_step_val weight_val weight_old_val weight_old_old_val now_val
       at_end_val weight_changed].
  replace (current_step_val c1) with (1#1)%Q by (vm_compute; reflexivity).
  replace (current_step_val c2) with (2#1)%Q by (vm_compute; reflexivity).
  replace (last_step_val c2) with (2#1)%Q by (vm_compute; reflexivity).
  replace (weight_val c2) with (3#4)%Q by (vm_compute; reflexivity).
  replace (weight_old_val c2) with (-1#1)%Q by (vm_compute; reflexivity).
  replace (weight_old_old_val c2) with (1#4)%Q by (vm_compute; reflexivity).
  replace (now_val c2) with (3#1)%Q by (vm_compute; reflexivity).
  replace (now_val c1) with (1#1)%Q by (vm_compute; reflexivity).
  replace (now_val (ts_init q_b)) with (0#1)%Q by (vm_compute; reflexivity).
  replace (at_end_val c2) with false by (vm_compute; reflexivity).
  replace (weight_changed c2) with true by (vm_compute; reflexivity).
  unfold Q2R, quad, quad'; cbn [Qnum Qden]. repeat split; lra.
Qed.

Lemma restart_refuted :
  exists (p : ts_params RNum) (h : list (op RNum)),
    tp_scheme p = bdf_2 /\ plain h /\ legal (ts_init p) h /\
    (let b := next (ts_init p) in weight b + weight_old b + weight_old_old b = 0)%R /\
    (let a := next (restart (run (ts_init p) h)) in
     weight a + weight_old a + weight_old_old a <> 0)%R.
Proof.
  exists (qparams q_b), (map qop [Next; Next]).
  split; [reflexivity|]. split; [reflexivity|].
  split; [apply (legal_map_init q_b [Next; Next]); repeat split; intros _; vm_compute; reflexivity|].
  qclock q_b.
  unfold weight, weight_old, weight_old_old;
  cbn [map_clock weight_val weight_old_val weight_old_old_val].
  set (b := next (ts_init q_b)).
  set (a := next (restart (run (ts_init q_b) [Next; Next]))).
  replace (weight_val b) with (1#1)%Q by (vm_compute; reflexivity).
  replace (weight_old_val b) with (-1#1)%Q by (vm_compute; reflexivity).
  replace (weight_old_old_val b) with (0#1)%Q by (vm_compute; reflexivity).
  replace (weight_val a) with (1#1)%Q by (vm_compute; reflexivity).
  replace (weight_old_val a) with (-1#1)%Q by (vm_compute; reflexivity).
  replace (weight_old_old_val a) with (1#2)%Q by (vm_compute; reflexivity).
  unfold Q2R; cbn [Qnum Qden]. split; lra.
Qed.

Lemma extrapolation_refuted :
  exists (p : ts_params RNum) (h : list (op RNum)) (v : R),
    plain h /\
    let c0 := run (ts_init p) h in let c1 := next c0 in
    let c2 := next (set_desired_time_step c1 v) in
    at_end c2 = false /\ (1 < step_no c1)%Z /\ (0 < step_size c1)%R /\ (0 < step_size c2)%R /\
    (extrapolate c2 (now c1) (now c0) <> now c2)%R.
Proof.
  exists (qparams q_b), (map qop [Next; Next]), (Q2R 2%Q).
  split; [reflexivity|].
  qclock q_b.
  set (c0 := run (ts_init q_b) [Next; Next]).
  set (c1 := next c0).
  set (c2 := next (set_desired_time_step c1 2%Q)).
  unfold extrapolate, step_size, step_no, now, at_end; rnum.
  cbn [map_clock current_step_val factor_extrapol_old factor_extrapol_old_old now_val at_end_val step_no_val].
  replace (current_step_val c1) with (1#1)%Q by (vm_compute; reflexivity).
  replace (current_step_val c2) with (2#1)%Q by (vm_compute; reflexivity).
  replace (factor_extrapol_old c2) with (2#1)%Q by (vm_compute; reflexivity).
  replace (factor_extrapol_old_old c2) with (-1#1)%Q by (vm_compute; reflexivity).
  replace (now_val c2) with (5#1)%Q by (vm_compute; reflexivity).
  replace (now_val c1) with (3#1)%Q by (vm_compute; reflexivity).
  replace (now_val c0) with (2#1)%Q by (vm_compute; reflexivity).
  replace (at_end_val c2) with false by (vm_compute; reflexivity).
  replace (step_no_val c1) with 3%Z by (vm_compute; reflexivity).
  unfold Q2R; cbn [Qnum Qden]. repeat split; lra.
Qed.

Lemma at_tick_eval (c : clock RNum) (tick : R) (z : Z) :
  0 < tick -> 0 <= now c -> (0 <= z <= 1000)%Z ->
  IZR z * tick <= now c * (10000000001 / 10000000000) < (IZR z + 1) * tick ->
  at_tick c tick = Some (negb (Rltb (step_size c * (95/100)) (now c - IZR z * tick) && negb (at_end c))).
Proof.
  intros Ht Hn Hz [H1 H2]. unfold at_tick; rnum. unfold Q2R; cbn [Qnum Qden].
  assert (E : Rtrunc (now c * (10000000001 * / 10000000000) / tick) = z).
  { apply Rtrunc_unique.
    - unfold Rdiv. apply Rmult_le_pos; [nra|]. apply Rlt_le, Rinv_0_lt_compat; auto.
    - split.
      + apply (Rmult_le_reg_r tick); auto. unfold Rdiv at 1. rewrite Rmult_assoc, Rinv_l by lra.
        lra.
      + apply (Rmult_lt_reg_r tick); auto. unfold Rdiv at 1. rewrite Rmult_assoc, Rinv_l by lra.
        lra. }
  rewrite E, int_range_Some by lia. unfold ngtb; rnum.
  replace (95 * / 100) with (95/100) by reflexivity.
  replace (IZR z * / 1 * tick) with (IZR z * tick) by lra.
  destruct (_ && _); reflexivity.
Qed.

Lemma at_tick_refuted :
  exists (p : ts_params RNum) (tick : R),
    (0 < tick)%R /\
    let c1 := next (ts_init p) in let c2 := next c1 in let c3 := next c2 in
    (now c1 < tick < now c2)%R /\ (2 * tick < now c3)%R /\
    at_tick c1 tick = Some false /\ at_tick c2 tick = Some false /\ at_tick c3 tick = Some false.
Proof.
  exists (qparams q_b), (102/100)%R. split; [lra|].
  qclock q_b.
  set (c1 := next (ts_init q_b)). set (c2 := next c1). set (c3 := next c2).
  assert (A1 : now (qclk c1) = 1).
  { unfold now; cbn [map_clock now_val]. replace (now_val c1) with (1#1)%Q by (vm_compute; reflexivity).
    unfold Q2R; cbn; lra. }
  assert (A2 : now (qclk c2) = 2).
  { unfold now; cbn [map_clock now_val]. replace (now_val c2) with (2#1)%Q by (vm_compute; reflexivity).
    unfold Q2R; cbn; lra. }
  assert (A3 : now (qclk c3) = 3).
  { unfold now; cbn [map_clock now_val]. replace (now_val c3) with (3#1)%Q by (vm_compute; reflexivity).
    unfold Q2R; cbn; lra. }
  assert (B1 : step_size (qclk c1) = 1).
  { unfold step_size; cbn [map_clock current_step_val]. replace (current_step_val c1) with (1#1)%Q by (vm_compute; reflexivity).
    unfold Q2R; cbn; lra. }
  assert (B2 : step_size (qclk c2) = 1).
  { unfold step_size; cbn [map_clock current_step_val]. replace (current_step_val c2) with (1#1)%Q by (vm_compute; reflexivity).
    unfold Q2R; cbn; lra. }
  assert (B3 : step_size (qclk c3) = 1).
  { unfold step_size; cbn [map_clock current_step_val]. replace (current_step_val c3) with (1#1)%Q by (vm_compute; reflexivity).
    unfold Q2R; cbn; lra. }
  assert (E1 : at_end (qclk c1) = false) by (change (at_end_val c1 = false); vm_compute; reflexivity).
  assert (E2 : at_end (qclk c2) = false) by (change (at_end_val c2 = false); vm_compute; reflexivity).
  assert (E3 : at_end (qclk c3) = false) by (change (at_end_val c3 = false); vm_compute; reflexivity).
  split; [rewrite A1, A2; lra|]. split; [rewrite A3; lra|].
  rewrite (at_tick_eval _ _ 0), (at_tick_eval _ _ 1), (at_tick_eval _ _ 2);
    rewrite ?A1, ?A2, ?A3, ?B1, ?B2, ?B3, ?E1, ?E2, ?E3; try lra; try lia.
  cbn [negb]. rewrite !andb_true_r. repeat split;
    match goal with |- context [Rltb ?a ?b] => destruct (Rltb_spec a b); [reflexivity|lra] end.
Qed.
