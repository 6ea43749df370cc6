(** * Property theorems C01 - C10: the clock [TimeStepping]

    Statements use the public interface (getters, calls and call histories) and the vocabulary of
    [Spec_TimeStepping] only.  Theorems quantified over [N : Num] hold for every arithmetic,
    including binary64; those about [RNum] are about exact arithmetic. *)
From Coq Require Import ZArith QArith Reals Bool List Lra Lia String.
From Verif Require Import Num NumQ Model_TimeStepping Spec_TimeStepping Transfer_TimeStepping
  Proofs_TimeStepping Proofs_TimeStepping2.
Import ListNotations.

(** ** C01: the time loop ends exactly on the final time *)
Theorem C01_end_is_hit_exactly :
  forall (N : Num) (p : ts_params N) (h : list (op N)),
    plain h -> legal (ts_init p) h ->
    let c := run (ts_init p) h in
    (at_end c = true -> now c = tp_end p) /\
    (at_end c = false -> at_end (next c) = true ->
       now (next c) = tp_end p /\ step_size (next c) = nsub (tp_end p) (now c)) /\
    (at_end (next c) = false ->
       nltb (nsub (tp_end p) (nmul (nlit (1#100)) (step_size (next c)))) (now (next c)) = false).
Proof.
  intros N p h Hp Hl c.
  destruct (end_exact_inv p h (ts_init p)) as [H1 H2]; auto; [discriminate|].
  fold c in H1, H2. rewrite <- H2. repeat split; auto.
  - intros; apply next_end_exact; assumption.
  - intros; apply next_end_exact; assumption.
  - intros; apply next_not_end; assumption.
Qed.
Print Assumptions C01_end_is_hit_exactly.

(** the remaining time in exact arithmetic: at least one percent of the step just done *)
Theorem C01_not_yet_at_end :
  forall (p : ts_params RNum) (h : list (op RNum)),
    plain h -> legal (ts_init p) h ->
    let c := next (run (ts_init p) h) in
    at_end c = false -> (now c + step_size c / 100 <= tp_end p)%R.
Proof.
  intros p h Hp Hl c H.
  destruct (C01_end_is_hit_exactly RNum p h Hp Hl) as (_ & _ & X).
  specialize (X H). rnum. apply Rltb_false in X. unfold Q2R in X; cbn [Qnum Qden] in X.
  fold c in X. lra.
Qed.
Print Assumptions C01_not_yet_at_end.

Definition ex_q : ts_params QNum :=
  MkTP (N:=QNum) bdf_2 (0:Q) (3:Q) (8#10)%Q (5:Q) (1#10)%Q.
Definition ex_f : ts_params FNum :=
  MkTP (N:=FNum) bdf_2 (Fof_Z 0) (Fof_Z 3) (Fof_Q (8#10)) (Fof_Z 5) (Fof_Q (1#10)).
Definition ex_h {N : Num} : list (op N) := [Next; SetDesired (nlit (7#10)); Next; Next; Next; Next].
Example C01_nonvacuous :
  plain (N:=FNum) ex_h /\ legal (ts_init ex_f) ex_h /\ at_end (run (ts_init ex_f) ex_h) = true /\
  plain (N:=RNum) (map qop ex_h) /\
  legal (ts_init ex_q) ex_h /\ at_end (run (ts_init ex_q) ex_h) = true.
Proof. repeat split; intros; try reflexivity; vm_compute; reflexivity. Qed.

(** ** C02: the canonical loop terminates *)
Theorem C02_time_loop_terminates :
  forall (p : ts_params RNum) (ds : nat -> option R) (m : R),
    (0 < m)%R -> (m <= tp_step_start p)%R -> (m <= tp_step_max p)%R -> (m <= tp_step_min p)%R ->
    (tp_start p < tp_end p)%R ->
    exists n, (0 < n)%nat /\ (INR n <= (tp_end p - tp_start p) / m + 1)%R /\
      at_end (time_loop ds n (ts_init p)) = true /\
      now (time_loop ds n (ts_init p)) = tp_end p /\
      forall k, (k < n)%nat -> at_end (time_loop ds k (ts_init p)) = false /\
        (tp_start p + INR k * m <= now (time_loop ds k (ts_init p)) < tp_end p)%R.
Proof.
  intros p ds m H0 H1 H2 H3 H4.
  apply (loop_terminates m ds (ts_init p)); [constructor; cbn; assumption | reflexivity | exact H4].
Qed.
Print Assumptions C02_time_loop_terminates.
Example C02_nonvacuous : let p := qparams ex_q in
  (0 < 1/10)%R /\ (1/10 <= tp_step_start p)%R /\ (1/10 <= tp_step_max p)%R /\
  (1/10 <= tp_step_min p)%R /\ (tp_start p < tp_end p)%R.
Proof. cbn. unfold Q2R; cbn. lra. Qed.

(** without any step size requests the minimal step size plays no role *)
Theorem C02_plain_loop_terminates :
  forall (p : ts_params RNum),
    (0 < tp_step_start p)%R -> (0 < tp_step_max p)%R -> (tp_start p < tp_end p)%R ->
    exists n, (INR n <= (tp_end p - tp_start p) / Rmin (tp_step_start p) (tp_step_max p) + 1)%R /\
      at_end (next_n n (ts_init p)) = true /\ now (next_n n (ts_init p)) = tp_end p /\
      forall k, (k < n)%nat -> at_end (next_n k (ts_init p)) = false.
Proof.
  exact plain_loop_terminates.
Qed.
Print Assumptions C02_plain_loop_terminates.

(** binary64: a step below half an ulp of the start time is absorbed, the loop never ends *)
Theorem C02_terminates_in_binary64_refuted :
  exists p : ts_params FNum,
    nltb (tp_start p) (tp_end p) = true /\ nltb (n:=FNum) (Fof_Z 0) (tp_step_start p) = true /\
    nltb (n:=FNum) (Fof_Z 0) (tp_step_min p) = true /\ nltb (tp_step_min p) (tp_step_max p) = true /\
    forall n, at_end (next_n n (ts_init p)) = false /\ now (next_n n (ts_init p)) = tp_start p.
Proof.
  exists (MkTP (N:=FNum) implicit_euler (Fof_Z 100000000000000000) (Fof_Z 200000000000000000)
            (Fof_Z 1) (Fof_Z 10) (Fof_Q (1#10))).
  do 4 (split; [vm_compute; reflexivity|]).
  intros n. cbv zeta.
  match goal with |- context [next_n n ?c] =>
    assert (S : stuck (next_n n c))
      by (apply stuck_forever; constructor; vm_compute; reflexivity) end.
  destruct S; split; assumption.
Qed.
Print Assumptions C02_terminates_in_binary64_refuted.

(** ** C03: clock bookkeeping *)
Theorem C03_bookkeeping :
  forall (N : Num) (p : ts_params N) (h : list (op N)),
    plain h ->
    let c := run (ts_init p) h in
    previous (next c) = now c /\ next_result c = now (next c) /\
    step_no (next c) = ((step_no c + 1) mod 4294967296)%Z /\
    step_no c = (Z.of_nat (number_of_next h) mod 4294967296)%Z.
Proof.
  intros N p h Hp c. destruct (next_bookkeeping c) as (A & B & C).
  repeat split; auto. apply step_no_run; auto.
Qed.
Print Assumptions C03_bookkeeping.

Theorem C03_steps_add_up :
  forall (p : ts_params RNum) (h : list (op RNum)),
    plain h ->
    let c := run (ts_init p) h in
    (step_size (next c) = now (next c) - now c)%R /\
    (Rsum (steps_taken (ts_init p) h) = now c - tp_start p)%R.
Proof.
  intros p h Hp c. split; [apply next_step_diff | apply sum_steps; auto].
Qed.
Print Assumptions C03_steps_add_up.
(** the setters change what they are called after and nothing else one can ask for; [clock_view]: the answers of all accessors *)
Definition clock_view {N : Num} (c : clock N) :=
  ((ts_start c, ts_final c, ts_scheme c), (step_size c, max_step_size c, old_step_size c),
   (now c, previous c, step_no c, at_end c), (weight c, weight_old c, weight_old_old c, weight_has_changed c), (tau1 c, tau2 c)).
Theorem C03_setters :
  forall (N : Num) (c : clock N) (x : N),
    let rest := (now c, previous c, step_no c, at_end c) in
    let weights := (weight c, weight_old c, weight_old_old c, weight_has_changed c) in
    let tau := (tau1 c, tau2 c) in
    clock_view (set_start_time c x) = ((x, ts_final c, ts_scheme c), (step_size c, max_step_size c, old_step_size c), rest, weights, tau) /\
    clock_view (set_final_time c x) = ((ts_start c, x, ts_scheme c), (step_size c, max_step_size c, old_step_size c), rest, weights, tau) /\
    clock_view (set_time_step c x) = ((ts_start c, ts_final c, ts_scheme c), (x, max_step_size c, old_step_size c), rest, weights, tau) /\
    exists y, clock_view (set_desired_time_step c x) = ((ts_start c, ts_final c, ts_scheme c), (y, max_step_size c, old_step_size c), rest, weights, tau).
Proof. intros N c x rest weights tau. unfold rest, weights, tau. split; [reflexivity|]. split; [reflexivity|]. split; [reflexivity|]. eexists; reflexivity. Qed.
Print Assumptions C03_setters.
Example C03_nonvacuous : plain (N:=RNum) (map qop ex_h) /\
  number_of_next (N:=FNum) ex_h = 5%nat.
Proof. split; reflexivity. Qed.

(** ** C04: step size control *)
Theorem C04_desired_step_control :
  forall (p : ts_params RNum) (h : list (op RNum)) (d : R),
    (tp_step_min p <= tp_step_max p)%R -> plain h ->
    let c := run (ts_init p) h in
    let c1 := set_desired_time_step c d in
    (tp_step_min p <= step_size c1 <= tp_step_max p)%R /\
    ((0 < step_size c)%R -> now c <> 0%R ->
      exists s, is_clamp (step_size c / 2) (2 * step_size c) d s /\
                is_clamp (tp_step_min p) (tp_step_max p) s (step_size c1)) /\
    (at_end c = false -> at_end (next c1) = false -> step_size (next c1) = step_size c1) /\
    (at_end c = false -> (0 < step_size c1)%R -> at_end (next c1) = true ->
       (step_size (next c1) <= 1.01 * step_size c1)%R).
Proof.
  exact desired_control.
Qed.
Print Assumptions C04_desired_step_control.
Example C04_nonvacuous : let p := qparams ex_q in
  (tp_step_min p <= tp_step_max p)%R /\
  let c := run (ts_init p) (map qop [Next]) in (0 < step_size c)%R /\ now c <> 0%R.
Proof.
  split; [cbn; unfold Q2R; cbn; lra|].
  cbv zeta. rewrite (@map_run_init QNum RNum Q2R Q2R_hom ex_q [Next]).
  unfold step_size, now; cbn [map_clock current_step_val now_val].
  replace (current_step_val (run (ts_init ex_q) [Next])) with (8#10)%Q by (vm_compute; reflexivity).
  replace (now_val (run (ts_init ex_q) [Next])) with (4#5)%Q by (vm_compute; reflexivity).
  unfold Q2R; cbn; lra.
Qed.

(** the factor-two growth limit is skipped whenever the time is zero, also in the middle of a run *)
Theorem C04_growth_limit_refuted :
  exists (p : ts_params RNum) (h : list (op RNum)) (d : R),
    let c := run (ts_init p) h in
    plain h /\ (0 < step_no c)%Z /\ (0 < step_size c)%R /\
    (tp_step_min p < step_size c /\ 2 * step_size c < tp_step_max p)%R /\
    (10 * step_size c <= step_size (set_desired_time_step c d))%R.
Proof.
  set (pq := MkTP (N:=QNum) bdf_2 (-1:Q) (10:Q) (1:Q) (20:Q) (1#10)%Q).
  exists (qparams pq), (map qop [Next]), (Q2R 10).
  cbv zeta. rewrite (@map_run_init QNum RNum Q2R Q2R_hom pq [Next]).
  unfold set_desired_time_step. rewrite (@map_desired QNum RNum Q2R Q2R_hom).
  unfold step_size, step_no; cbn [with_step map_clock current_step_val step_no_val].
  replace (current_step_val (run (ts_init pq) [Next])) with (1#1)%Q by (vm_compute; reflexivity).
  replace (desired_step (run (ts_init pq) [Next]) 10%Q) with (10#1)%Q by (vm_compute; reflexivity).
  replace (step_no_val (run (ts_init pq) [Next])) with 1%Z by (vm_compute; reflexivity).
  split; [reflexivity|]. split; [reflexivity|].
  unfold pq, Q2R; cbn; repeat split; lra.
Qed.
Print Assumptions C04_growth_limit_refuted.

(** ** C05: BDF-2 weights *)
(** partial: proved when no step size call lies between the last two next() calls; the weight may
    be kept from the step before if it differs by at most 1e-12 relative *)
Theorem C05_bdf2_weights_partial :
  forall (p : ts_params RNum) (h : list (op RNum)),
    tp_scheme p = bdf_2 -> well_posed p -> plain h -> positive_requests h ->
    legal (ts_init p) (h ++ [Next; Next]) ->
    let c0 := run (ts_init p) h in let c1 := next c0 in let c2 := next c1 in
    exists w, (0 < w)%R /\
      (forall a b d, w * quad a b d (now c2) + weight_old c2 * quad a b d (now c1)
         + weight_old_old c2 * quad a b d (now c0) = quad' a b d (now c2))%R /\
      (Rabs (weight c2 - w) <= w / 1000000000000)%R /\
      (weight_has_changed c2 = true -> weight c2 = w).
Proof.
  exact bdf2_history.
Qed.
Print Assumptions C05_bdf2_weights_partial.

(** the accessor max_weight_uniform() is the weight of BDF-2 with equal steps, and of the one-step schemes *)
Theorem C05_uniform_weight :
  (forall (p : ts_params RNum) (h : list (op RNum)),
    tp_scheme p = bdf_2 -> well_posed p -> plain h -> positive_requests h ->
    legal (ts_init p) (h ++ [Next; Next]) ->
    let c0 := run (ts_init p) h in let c1 := next c0 in let c2 := next c1 in
    now c2 - now c1 = now c1 - now c0 -> 0 < now c1 - now c0 ->
    (Rabs (weight c2 - max_weight_uniform c2) <= max_weight_uniform c2 / 1000000000000))%R /\
  (forall (c : clock RNum), ts_scheme c <> bdf_2 -> step_size c <> 0 -> max_weight_uniform c * step_size c = 1)%R.
Proof.
  split.
  - intros p h Hs Hw Hp Hq Hl c0 c1 c2 E P.
    destruct (bdf2_history p h Hs Hw Hp Hq Hl) as (w & Pw & Q & B & _).
    fold c0 in Q, B. fold c1 in Q, B. fold c2 in Q, B.
    specialize (Q (now c1 * now c0) (- (now c1 + now c0)) 1)%R. unfold quad, quad' in Q.
    assert (W : max_weight_uniform c2 = w).
    { assert (SC : scheme_val c2 = bdf_2).
      { unfold c2, c1, c0. cbn [next scheme_val]. clear -Hs Hp.
        assert (G : forall (c : clock RNum), scheme_val (run c h) = scheme_val c).
        { clear Hp. induction h as [|o l IH]; intros c; [easy|]. change (run c (o :: l)) with (run (apply_op c o) l). rewrite IH. now destruct o. }
        rewrite G. exact Hs. }
      unfold max_weight_uniform. rewrite SC. cbn [scheme_eqb].
      assert (SZ : current_step_val c2 = (now c1 - now c0)%R).
      { rewrite <- E. symmetry. unfold c2. symmetry. apply next_step_diff. }
      rewrite SZ. change (nlit (15 # 10)) with (Q2R (15 # 10)). unfold ndiv; cbn [RNum].
      assert (GG : forall t0 t1 t2 wo woo d : R, (t1 - t0 = d -> t2 - t1 = d -> 0 < d ->
        w * (t1 * t0 + - (t1 + t0) * t2 + 1 * (t2 * t2)) + wo * (t1 * t0 + - (t1 + t0) * t1 + 1 * (t1 * t1))
        + woo * (t1 * t0 + - (t1 + t0) * t0 + 1 * (t0 * t0)) = - (t1 + t0) + 2 * 1 * t2 -> Q2R (15 # 10) / d = w)%R).
      { clear. intros t0 t1 t2 wo woo d E1 E2 P Q.
        replace t2 with (t0 + 2 * d)%R in Q by lra. replace t1 with (t0 + d)%R in Q by lra.
        assert (K : (w * (2 * d * d) = 3 * d)%R) by (ring_simplify in Q; lra).
        unfold Q2R. cbn. apply (Rmult_eq_reg_r (2 * d * d)%R); [|nra]. rewrite K. field. lra. }
      exact (GG _ _ _ _ _ _ eq_refl E P Q). }
    rewrite W. exact B.
  - intros c Hs Hn. unfold max_weight_uniform, ts_scheme, step_size in *.
    destruct (scheme_eqb (scheme_val c) bdf_2) eqn:Eb; [destruct (scheme_val c); try discriminate; now contradict Hs|].
    unfold ndiv; cbn [RNum]. unfold nlit; cbn [RNum]. unfold Q2R; cbn. cbn in Hn. field. exact Hn.
Qed.
Print Assumptions C05_uniform_weight.

(** the first step is an implicit Euler step: exact for linear functions *)
Theorem C05_first_step_is_euler :
  forall (p : ts_params RNum), well_posed p ->
    let c0 := ts_init p in let c1 := next c0 in
    weight_old_old c1 = 0%R /\
    exists w, (0 < w)%R /\
      (forall a b, w * (a + b * now c1) + weight_old c1 * (a + b * now c0) = b)%R /\
      (Rabs (weight c1 - w) <= w / 1000000000000)%R.
Proof.
  exact first_step_euler.
Qed.
Print Assumptions C05_first_step_is_euler.

Lemma ex_q_well_posed : well_posed (qparams ex_q).
Proof. unfold well_posed; cbn; unfold Q2R; cbn; lra. Qed.
Lemma legal_map (p : ts_params QNum) (h : list (op QNum)) :
  legal (ts_init p) h -> legal (ts_init (qparams p)) (map qop h).
Proof. exact (legal_map_init p h). Qed.
Example C05_nonvacuous :
  tp_scheme (qparams ex_q) = bdf_2 /\ well_posed (qparams ex_q) /\
  plain (N:=RNum) (map qop [Next; SetDesired (7#10:QNum)]) /\
  positive_requests (map qop [Next; SetDesired (7#10:QNum)]) /\
  legal (ts_init (qparams ex_q))
        (map qop ([Next; SetDesired (7#10:QNum)] ++ [Next; Next])).
Proof.
  split; [reflexivity|]. split; [apply ex_q_well_posed|]. split; [reflexivity|]. split.
  - repeat constructor.
  - apply (legal_map ex_q ([Next; SetDesired (7#10:QNum)] ++ [Next; Next])).
    repeat split; intros _; vm_compute; reflexivity.
Qed.

(** three equal steps *)
Example C05_uniform_nonvacuous :
  let c0 := run (ts_init ex_q) [] in let c1 := next c0 in let c2 := next c1 in
  andb (QArith_base.Qeq_bool (nsub (now c2) (now c1)) (nsub (now c1) (now c0))) (Qle_bool (1#10) (nsub (now c1) (now c0))) = true.
Proof. vm_compute. reflexivity. Qed.

(** with a step size request in between the stored old step is the NEW step: wrong weights *)
Theorem C05_bdf2_weights_refuted :
  exists (p : ts_params RNum) (v : R),
    tp_scheme p = bdf_2 /\
    let c0 := ts_init p in let c1 := next c0 in let c2 := next (set_desired_time_step c1 v) in
    at_end c2 = false /\ (0 < step_size c1)%R /\ (0 < step_size c2)%R /\
    weight_has_changed c2 = true /\ old_step_size c2 <> step_size c1 /\
    (weight c2 * quad 0 0 1 (now c2) + weight_old c2 * quad 0 0 1 (now c1)
         + weight_old_old c2 * quad 0 0 1 (now c0) <> quad' 0 0 1 (now c2))%R.
Proof.
  exact bdf2_refuted.
Qed.
Print Assumptions C05_bdf2_weights_refuted.

(** ** C06: restart *)
(** partial: everything except weight(), weight_old_old() and, before the first step, previous(),
    weight_old() and the extrapolation factors is that of a new clock, in any arithmetic *)
Theorem C06_restart_is_fresh_partial :
  forall (N : Num) (p : ts_params N) (h1 h2 : list (op N)),
    keeps_interval h1 -> keeps_interval h2 ->
    nltb (ndiv (nsub (tp_end p) (tp_start p)) (tp_step_start p)) (nlit (1 # 100000000000000)) = false ->
    let a := run (restart (run (ts_init p) h1)) h2 in
    let b := run (ts_init p) h2 in
    (now a = now b /\ step_size a = step_size b /\ old_step_size a = old_step_size b /\
     step_no a = step_no b /\ at_end a = at_end b /\ ts_start a = ts_start b /\
     ts_final a = ts_final b /\ tau1 a = tau1 b /\ tau2 a = tau2 b) /\
    (previous (next a) = previous (next b) /\ weight_old (next a) = weight_old (next b) /\
     (forall u v, extrapolate (next a) u v = extrapolate (next b) u v)) /\
    (tp_scheme p = bdf_2 -> neqb (now b) (ts_start b) = false ->
       weight_old_old (next a) = weight_old_old (next b)) /\
    (tp_scheme p <> bdf_2 -> weight_old_old a = weight_old_old b).
Proof.
  exact restart_fresh.
Qed.
Print Assumptions C06_restart_is_fresh_partial.
Example C06_nonvacuous : keeps_interval (N:=FNum) ex_h /\
  nltb (ndiv (nsub (tp_end ex_f) (tp_start ex_f)) (tp_step_start ex_f))
       (nlit (n:=FNum) (1 # 100000000000000)) = false /\
  at_end (run (restart (run (ts_init ex_f) ex_h)) ex_h) = true.
Proof. vm_compute. auto. Qed.

Theorem C06_restart_is_fresh_refuted :
  exists (p : ts_params RNum) (h : list (op RNum)),
    tp_scheme p = bdf_2 /\ plain h /\ legal (ts_init p) h /\
    (let b := next (ts_init p) in weight b + weight_old b + weight_old_old b = 0)%R /\
    (let a := next (restart (run (ts_init p) h)) in
     weight a + weight_old a + weight_old_old a <> 0)%R.
Proof.
  exact restart_refuted.
Qed.
Print Assumptions C06_restart_is_fresh_refuted.

(** ** C07: theta weights, names, constructors *)
Theorem C07_scheme_constants :
  forall (p : ts_params RNum) (h : list (op RNum)),
    let c := run (ts_init p) h in
    (tau1 c + tau2 c = 1)%R /\
    (tp_scheme p = implicit_euler \/ tp_scheme p = bdf_2 -> tau1 c = 1%R) /\
    (tp_scheme p = explicit_euler -> tau1 c = 0%R) /\
    (tp_scheme p = crank_nicolson -> tau1 c = (1/2)%R) /\
    ts_scheme c = tp_scheme p.
Proof.
  exact scheme_constants.
Qed.
Print Assumptions C07_scheme_constants.

Theorem C07_name_identifies_scheme :
  forall (N : Num) (p1 p2 : ts_params N) (h1 h2 : list (op N)),
    name (run (ts_init p1) h1) = name (run (ts_init p2) h2) <-> tp_scheme p1 = tp_scheme p2.
Proof.
  exact name_injective.
Qed.
Print Assumptions C07_name_identifies_scheme.

Theorem C07_constructors_agree :
  forall (N : Num) (s : scheme) (a b u m l : N),
    ts_init_flow s a b u m l = ts_init (MkTP (N:=N) s a b u m l).
Proof. exact @ctors_agree. Qed.
Print Assumptions C07_constructors_agree.

(** ** C08: extrapolation *)
(** partial: exact for linear functions if no step size call lies between the last two next() *)
Theorem C08_extrapolation_partial :
  forall (p : ts_params RNum) (h : list (op RNum)),
    well_posed p -> plain h -> positive_requests h -> legal (ts_init p) (h ++ [Next; Next]) ->
    let c0 := run (ts_init p) h in let c1 := next c0 in let c2 := next c1 in
    ((1 < step_no c1)%Z ->
      forall a b, (extrapolate c2 (a + b * now c1) (a + b * now c0) = a + b * now c2)%R) /\
    ((step_no c0 <= 1)%Z -> forall u v, extrapolate c1 u v = u) /\
    (forall u, extrapolate c2 u u = u).
Proof.
  exact extrapolation_history.
Qed.
Print Assumptions C08_extrapolation_partial.
(** hypotheses: as in [C05_nonvacuous]; the third step is reached: *)
Example C08_nonvacuous : let c1 := next (run (ts_init ex_q) [Next]) in (1 < step_no c1)%Z.
Proof. vm_compute. reflexivity. Qed.

Theorem C08_extrapolation_refuted :
  exists (p : ts_params RNum) (h : list (op RNum)) (v : R),
    plain h /\
    let c0 := run (ts_init p) h in let c1 := next c0 in
    let c2 := next (set_desired_time_step c1 v) in
    at_end c2 = false /\ (1 < step_no c1)%Z /\ (0 < step_size c1)%R /\ (0 < step_size c2)%R /\
    (extrapolate c2 (now c1) (now c0) <> now c2)%R.
Proof.
  exact extrapolation_refuted.
Qed.
Print Assumptions C08_extrapolation_refuted.

(** ** C09: at_tick *)
Theorem C09_at_tick_partial :
  forall (c : clock RNum) (tick : R),
    (0 < tick)%R -> (0 <= now c)%R -> (now c * 1.0000000001 / tick < 2147483647)%R ->
    exists r, at_tick c tick = Some r /\
     (at_end c = true -> r = true) /\
     ((exists k : Z, now c - 0.95 * step_size c <= IZR k * tick <= now c)%R -> r = true) /\
     (at_end c = false -> r = true ->
        exists k : Z, (now c - 0.95 * step_size c <= IZR k * tick <= now c * 1.0000000001)%R).
Proof. exact at_tick_sound. Qed.
Print Assumptions C09_at_tick_partial.

Example C09_nonvacuous : let c := run (ts_init (qparams ex_q)) (map qop [Next]) in
  (0 < 1/2)%R /\ (0 <= now c)%R /\ (now c * 1.0000000001 / (1/2) < 2147483647)%R /\
  (now c - 0.95 * step_size c <= 1 * (1/2) <= now c)%R.
Proof.
  cbv zeta. rewrite (@map_run_init QNum RNum Q2R Q2R_hom ex_q [Next]).
  unfold step_size, now; cbn [map_clock current_step_val now_val].
  replace (current_step_val (run (ts_init ex_q) [Next])) with (8#10)%Q by (vm_compute; reflexivity).
  replace (now_val (run (ts_init ex_q) [Next])) with (4#5)%Q by (vm_compute; reflexivity).
  unfold Q2R; cbn; lra.
Qed.

(** a tick strictly inside the first five percent of a step is reported by no step: here the
    first tick 1.02 lies in the second step (1,2] *)
Theorem C09_every_tick_reported_refuted :
  exists (p : ts_params RNum) (tick : R),
    (0 < tick)%R /\
    let c1 := next (ts_init p) in let c2 := next c1 in let c3 := next c2 in
    (now c1 < tick < now c2)%R /\ (2 * tick < now c3)%R /\
    at_tick c1 tick = Some false /\ at_tick c2 tick = Some false /\ at_tick c3 tick = Some false.
Proof. exact at_tick_refuted. Qed.
Print Assumptions C09_every_tick_reported_refuted.

(** ** C10: weight_has_changed *)
Theorem C10_weight_flag :
  forall (N : Num) (c : clock N),
    weight_has_changed (next c) = false -> weight (next c) = weight c.
Proof. intros N c; apply weight_changed_exact. Qed.
Print Assumptions C10_weight_flag.

(** partial: the sum is zero unless restart() was called before *)
Theorem C10_weights_partial :
  forall (p : ts_params RNum) (h : list (op RNum)),
    well_posed p -> plain h -> positive_requests h -> legal (ts_init p) (h ++ [Next]) ->
    let c := next (run (ts_init p) h) in
    exists w, (0 < w)%R /\ (w + weight_old c + weight_old_old c = 0)%R /\
      (Rabs (weight c - w) <= w / 1000000000000)%R /\
      (weight_has_changed c = true -> weight c = w).
Proof.
  exact weights_sum_history.
Qed.
Print Assumptions C10_weights_partial.

(** after a restart the sum is not zero: [C06_restart_is_fresh_refuted]. *)
