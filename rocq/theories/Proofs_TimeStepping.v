(** * Lemmas about the time stepping model *)
From Coq Require Import ZArith QArith Reals Bool List Lra Lia String.
From Verif Require Import Num Model_TimeStepping Spec_TimeStepping.
Import ListNotations.

(** ** Any arithmetic *)
Section Generic.
Context {N : Num}.
Implicit Types (c : clock N) (p : ts_params N) (h : list (op N)).

Lemma next_end_exact c :
  at_end c = false -> at_end (next c) = true ->
  now (next c) = ts_final c /\ step_size (next c) = nsub (ts_final c) (now c).
Proof.
  unfold at_end, now, step_size, ts_final; cbn [next at_end_val now_val current_step_val].
  intros H1 H2; rewrite H1 in H2; cbn [orb] in H2.
  unfold next_time, next_step; rewrite H2; auto.
Qed.

Lemma next_not_end c :
  at_end (next c) = false ->
  nltb (nsub (ts_final c) (nmul (nlit (1#100)) (step_size (next c)))) (now (next c)) = false.
Proof.
  unfold at_end, now, step_size, ts_final; cbn [next at_end_val now_val current_step_val].
  intros H; apply orb_false_iff in H as [H1 H2].
  unfold next_time, next_step; rewrite H2. unfold next_hits_end in H2.
  rewrite H1 in H2; cbn [negb andb] in H2. exact H2.
Qed.

Lemma plain_cons o h : plain (o :: h) -> plain_op o = true /\ plain h.
Proof. unfold plain; cbn [forallb]; apply andb_true_iff. Qed.

Lemma end_exact_inv p h c :
  (at_end c = true -> now c = ts_final c) -> ts_final c = tp_end p ->
  plain h -> legal c h ->
  (at_end (run c h) = true -> now (run c h) = ts_final (run c h)) /\
  ts_final (run c h) = tp_end p.
Proof.
  revert c; induction h as [|o h IH]; intros c H1 H2 Hp Hl; [split; assumption|].
  apply plain_cons in Hp as [Ho Hp]. destruct Hl as [Hle Hl].
  unfold run in *; cbn [fold_left]. apply IH; auto.
  - destruct o; try discriminate; cbn [apply_op].
    + specialize (Hle eq_refl). intros He. exact (proj1 (next_end_exact c Hle He)).
    + exact H1.
    + exact H1.
  - destruct o; try discriminate; exact H2.
Qed.

Lemma next_bookkeeping c :
  previous (next c) = now c /\ next_result c = now (next c) /\
  step_no (next c) = ((step_no c + 1) mod 4294967296)%Z.
Proof. repeat split. Qed.

Lemma step_no_run p h : plain h ->
  step_no (run (ts_init p) h) = (Z.of_nat (number_of_next h) mod 4294967296)%Z.
Proof.
  assert (G : forall c, plain h -> (0 <= step_no c < 4294967296)%Z ->
    step_no (run c h) = ((step_no c + Z.of_nat (number_of_next h)) mod 4294967296)%Z).
  { induction h as [|o h IH]; intros c Hp Hc.
    - cbn [run fold_left number_of_next]. rewrite Z.add_0_r, Z.mod_small; auto.
    - apply plain_cons in Hp as [Ho Hp]. unfold run in *; cbn [fold_left].
      destruct o; try discriminate; cbn [apply_op number_of_next].
      + rewrite IH; auto.
        * cbn [next step_no step_no_val]. rewrite Z.add_mod_idemp_l by lia.
          f_equal. unfold step_no. lia.
        * cbn [next step_no step_no_val]. apply Z.mod_pos_bound; lia.
      + rewrite IH; auto.
      + rewrite IH; auto. }
  intros Hp. rewrite G; auto. cbn. lia.
Qed.

Lemma tau_const c h : tau1 (run c h) = tau1 c /\ tau2 (run c h) = tau2 c /\
  ts_scheme (run c h) = ts_scheme c /\ name (run c h) = name c.
Proof.
  revert c; induction h as [|o h IH]; intros c; [repeat split|].
  unfold run in *; cbn [fold_left].
  destruct (IH (apply_op c o)) as (H1 & H2 & H3 & H4).
  rewrite H1, H2, H3, H4; destruct o; repeat split.
Qed.

Lemma ctors_agree s a b u m l :
  ts_init_flow s a b u m l = ts_init (MkTP (N:=N) s a b u m l).
Proof. reflexivity. Qed.

Lemma weight_changed_exact c :
  (weight_has_changed (next c) = false -> weight (next c) = weight c) /\
  (weight_has_changed (next c) = true -> weight (next c) = next_new_weight c).
Proof.
  unfold weight_has_changed, weight; cbn [next weight_changed weight_val].
  destruct (next_weight_changes c); split; intros; auto; discriminate.
Qed.

(** restart *)
Record same_core c1 c2 : Prop := {
  sc1 : start_val c1 = start_val c2; sc2 : final_val c1 = final_val c2;
  sc3 : scheme_val c1 = scheme_val c2; sc4 : start_step_val c1 = start_step_val c2;
  sc5 : max_step_val c1 = max_step_val c2; sc6 : min_step_val c1 = min_step_val c2;
  sc7 : current_step_val c1 = current_step_val c2; sc8 : last_step_val c1 = last_step_val c2;
  sc9 : step_val c1 = step_val c2; sc10 : step_no_val c1 = step_no_val c2;
  sc11 : at_end_val c1 = at_end_val c2; sc12 : now_val c1 = now_val c2;
  sc13 : tau1_val c1 = tau1_val c2; sc14 : tau2_val c1 = tau2_val c2 }.

Lemma same_core_s c1 c2 : same_core c1 c2 ->
  next_s c1 = next_s c2 /\ next_last c1 = next_last c2 /\ next_hits_end c1 = next_hits_end c2 /\
  next_step c1 = next_step c2 /\ next_time c1 = next_time c2 /\
  next_uses_bdf c1 = next_uses_bdf c2 /\ next_new_weight c1 = next_new_weight c2 /\
  next_weight_old c1 = next_weight_old c2.
Proof.
  intros [e1 e2 e3 e4 e5 e6 e7 e8 e9 e10 e11 e12 e13 e14].
  assert (A : not_at_start c1 = not_at_start c2)
    by (unfold not_at_start; rewrite e1, e12; reflexivity).
  assert (B : next_s c1 = next_s c2)
    by (unfold next_s; rewrite A, e3, e5, e7, e9, e10; reflexivity).
  assert (C : next_last c1 = next_last c2) by (unfold next_last; rewrite A, e7, e8; reflexivity).
  assert (D : next_hits_end c1 = next_hits_end c2)
    by (unfold next_hits_end; rewrite B, e2, e11, e12; reflexivity).
  assert (E : next_step c1 = next_step c2)
    by (unfold next_step; rewrite D, B, e2, e12; reflexivity).
  assert (F : next_time c1 = next_time c2)
    by (unfold next_time; rewrite D, B, e2, e12; reflexivity).
  assert (G : next_uses_bdf c1 = next_uses_bdf c2)
    by (unfold next_uses_bdf; rewrite A, e3; reflexivity).
  repeat split; auto.
  - unfold next_new_weight; rewrite E, C, G; reflexivity.
  - unfold next_weight_old; rewrite E, C, G; reflexivity.
Qed.

Lemma same_core_next c1 c2 : same_core c1 c2 -> same_core (next c1) (next c2).
Proof.
  intros H; destruct (same_core_s _ _ H) as (A & B & C & D & E & F & G & I); destruct H.
  constructor; cbn; congruence.
Qed.

Lemma same_core_op c1 c2 o : keeps_interval_op o = true -> same_core c1 c2 ->
  same_core (apply_op c1 o) (apply_op c2 o).
Proof.
  intros Ho H. destruct o; try discriminate; cbn [apply_op].
  - apply same_core_next, H.
  - destruct H; constructor; cbn; auto.
  - assert (E : desired_step c1 v = desired_step c2 v)
      by (destruct H as [e1 e2 e3 e4 e5 e6 e7 e8 e9 e10 e11 e12 e13 e14];
          unfold desired_step; rewrite e5, e6, e7, e12; reflexivity).
    destruct H; constructor; cbn; auto.
  - destruct H; constructor; cbn; congruence.
Qed.

Lemma same_core_run c1 c2 h : keeps_interval h -> same_core c1 c2 ->
  same_core (run c1 h) (run c2 h).
Proof.
  revert c1 c2; induction h as [|o h IH]; intros c1 c2 Hh H; [exact H|].
  unfold keeps_interval in *; cbn [forallb] in Hh; apply andb_true_iff in Hh as [Ho Hh].
  unfold run in *; cbn [fold_left]. apply IH; auto. apply same_core_op; auto.
Qed.

Lemma keeps_consts p h c : keeps_interval h ->
  start_val c = tp_start p -> final_val c = tp_end p -> scheme_val c = tp_scheme p ->
  start_step_val c = tp_step_start p -> max_step_val c = tp_step_max p ->
  min_step_val c = tp_step_min p -> tau1_val c = tau1_of (tp_scheme p) ->
  tau2_val c = tau2_of (tp_scheme p) ->
  let r := run c h in
  start_val r = tp_start p /\ final_val r = tp_end p /\ scheme_val r = tp_scheme p /\
  start_step_val r = tp_step_start p /\ max_step_val r = tp_step_max p /\
  min_step_val r = tp_step_min p /\ tau1_val r = tau1_of (tp_scheme p) /\
  tau2_val r = tau2_of (tp_scheme p).
Proof.
  revert c; induction h as [|o h IH]; intros c Hh H1 H2 H3 H4 H5 H6 H7 H8 r; subst r.
  - cbn. repeat split; assumption.
  - unfold keeps_interval in *; cbn [forallb] in Hh; apply andb_true_iff in Hh as [Ho Hh].
    unfold run in *; cbn [fold_left].
    apply IH; auto; destruct o; try discriminate; cbn; assumption.
Qed.

Lemma restart_same_core p h :
  keeps_interval h ->
  nltb (ndiv (nsub (tp_end p) (tp_start p)) (tp_step_start p)) (nlit (1 # 100000000000000)) = false ->
  same_core (restart (run (ts_init p) h)) (ts_init p).
Proof.
  intros Hh He.
  destruct (keeps_consts p h (ts_init p)) as (A & B & C & D & E & F & G & I); auto.
  constructor; cbn; try congruence; auto.
Qed.

Lemma run_app c h1 h2 : run c (h1 ++ h2) = run (run c h1) h2.
Proof. unfold run; apply fold_left_app. Qed.

Lemma next_n_run n c : next_n n c = run c (repeat Next n).
Proof. revert c; induction n as [|n IH]; intros c; [reflexivity|]. cbn. apply IH. Qed.

Lemma next_n_S n c : next_n (S n) c = next (next_n n c).
Proof. revert c; induction n as [|n IH]; intros c; [reflexivity|]. cbn. rewrite <- IH. reflexivity. Qed.

(** weight_old_old outside BDF-2 is never written *)
Lemma woo_not_bdf c h : ts_scheme c <> bdf_2 -> weight_old_old (run c h) = weight_old_old c.
Proof.
  revert c; induction h as [|o h IH]; intros c Hs; [reflexivity|].
  unfold run in *; cbn [fold_left]. rewrite IH.
  - destruct o; try reflexivity. cbn [apply_op]. unfold weight_old_old; cbn [next weight_old_old_val].
    unfold next_weight_old_old, next_uses_bdf. unfold ts_scheme in Hs.
    destruct (scheme_val c); try reflexivity. congruence.
  - destruct o; exact Hs.
Qed.
End Generic.

Lemma same_core_after_next (N : Num) (c1 c2 : clock N) : same_core c1 c2 ->
  previous (next c1) = previous (next c2) /\ weight_old (next c1) = weight_old (next c2) /\
  factor_extrapol_old (next c1) = factor_extrapol_old (next c2) /\
  factor_extrapol_old_old (next c1) = factor_extrapol_old_old (next c2) /\
  (ts_scheme c1 = bdf_2 -> neqb (now c1) (ts_start c1) = false ->
   weight_old_old (next c1) = weight_old_old (next c2)).
Proof.
  intros H. destruct (same_core_s _ _ H) as (A & B & C & D & E & F & G & I).
  pose proof H as H'. destruct H' as [e1 e2 e3 e4 e5 e6 e7 e8 e9 e10 e11 e12 e13 e14].
  unfold previous, weight_old, weight_old_old; cbn. repeat split; try congruence.
  - rewrite e10. rewrite D, B. reflexivity.
  - rewrite e10. rewrite D, B. reflexivity.
  - intros Hs Hn. unfold next_weight_old_old. rewrite <- F, D, B.
    unfold ts_scheme, now, ts_start in *.
    assert (U : next_uses_bdf c1 = true).
    { unfold next_uses_bdf, not_at_start. rewrite Hs, Hn. reflexivity. }
    rewrite U. reflexivity.
Qed.

(** ** Exact arithmetic *)
Local Open Scope R_scope.
Notation Rclock := (clock RNum).
Notation Rop := (op RNum).

Ltac q2r := unfold Q2R in *; cbn [Qnum Qden] in *.

Lemma next_step_diff (c : Rclock) : step_size (next c) = now (next c) - now c.
Proof.
  unfold step_size, now; cbn [next current_step_val now_val].
  unfold next_step, next_time; destruct (next_hits_end c); rnum; lra.
Qed.

Lemma sum_steps (c : Rclock) (h : list Rop) : plain h ->
  Rsum (steps_taken c h) = now (run c h) - now c.
Proof.
  revert c; induction h as [|o h IH]; intros c Hp.
  - cbn. unfold now; rnum; lra.
  - apply plain_cons in Hp as [Ho Hp]. unfold run in *; cbn [fold_left].
    destruct o; try discriminate; cbn [steps_taken apply_op].
    + cbn [Rsum fold_right]. fold (Rsum (steps_taken (next c) h)). rewrite IH by assumption.
      rewrite next_step_diff. lra.
    + rewrite IH by assumption. reflexivity.
    + rewrite IH by assumption. reflexivity.
Qed.

(** lower bound invariant for the termination argument *)
Record lower (m : R) (c : Rclock) : Prop := {
  lo_pos : 0 < m; lo_cur : m <= current_step_val c; lo_step : m <= step_val c;
  lo_max : m <= max_step_val c; lo_min : m <= min_step_val c }.

Lemma lower_next_s m c : lower m c -> m <= next_s c.
Proof.
  intros [H0 H1 H2 H3 H4]. unfold next_s. destruct (not_at_start c); auto.
  unfold ngtb; rnum.
  destruct (scheme_eqb (scheme_val c) bdf_2 && (step_no_val c =? 1)%Z);
    match goal with |- context [Rltb ?a ?b] => destruct (Rltb_spec a b) end; auto.
Qed.

Lemma lower_next m c : lower m c -> at_end (next c) = false ->
  lower m (next c) /\ now c + m <= now (next c) /\ now (next c) + m / 100 <= ts_final c.
Proof.
  intros HL He. pose proof (lower_next_s m c HL) as Hs.
  pose proof (next_not_end c He) as Hn. rnum. apply Rltb_false in Hn. q2r.
  unfold at_end in He; cbn [next at_end_val] in He. apply orb_false_iff in He as [_ He].
  destruct HL as [H0 H1 H2 H3 H4].
  unfold step_size, now, ts_final in *; cbn [next current_step_val now_val] in *.
  unfold next_step, next_time in *. rewrite He in *. rnum.
  repeat split; cbn [next current_step_val step_val max_step_val min_step_val]; auto; try lra.
  unfold next_step; rewrite He; assumption.
Qed.

Lemma desired_lower m c d : lower m c -> m <= desired_step c d.
Proof.
  intros [H0 H1 H2 H3 H4]. unfold desired_step, nmin, nmax; rnum.
  repeat match goal with |- context [Rltb ?a ?b] => destruct (Rltb_spec a b) end; lra.
Qed.

Lemma lower_adapt m c d : lower m c ->
  lower m (request c d).
Proof.
  intros H; destruct d as [v|]; auto.
  pose proof (desired_lower m c v H). destruct H; constructor; cbn; auto.
Qed.

Lemma adaptive_fields c d :
  ts_final (adaptive_step c d) = ts_final c /\
  now (request c d) = now c /\
  ts_final (request c d) = ts_final c.
Proof. destruct d; repeat split. Qed.

Lemma loop_progress m ds n c :
  lower m c -> (forall k, (k <= n)%nat -> at_end (time_loop ds k c) = false) ->
  lower m (time_loop ds n c) /\ now c + INR n * m <= now (time_loop ds n c) /\
  ts_final (time_loop ds n c) = ts_final c /\
  ((0 < n)%nat -> now (time_loop ds n c) <= ts_final c - m / 100).
Proof.
  intros HL; induction n as [|n IH]; intros Hk.
  - cbn [time_loop INR]. repeat split; try lia; auto; try (destruct HL; auto; fail). lra.
  - destruct IH as (A & B & C & D); [intros; apply Hk; lia|].
    cbn [time_loop]. set (c' := time_loop ds n c) in *.
    destruct (adaptive_fields c' (ds n)) as (E & F & G).
    assert (He : at_end (adaptive_step c' (ds n)) = false) by (apply (Hk (S n)); lia).
    unfold adaptive_step in *.
    destruct (lower_next m _ (lower_adapt m c' (ds n) A) He) as (P & Q & S).
    rewrite F in Q. rewrite G in S. rewrite S_INR. rewrite C in S, E.
    split; [exact P|]. split; [lra|]. split; [exact E|]. intros _. lra.
Qed.

Lemma first_true (f : nat -> bool) (B : nat) :
  (exists k, (k <= B)%nat /\ f k = true) ->
  exists n, (n <= B)%nat /\ f n = true /\ forall k, (k < n)%nat -> f k = false.
Proof.
  induction B as [|B IH]; intros [k [Hk Hf]].
  - exists O. assert (k = O) by lia; subst. repeat split; auto. intros; lia.
  - destruct (existsb f (seq 0 (S B))) eqn:E.
    + apply existsb_exists in E as [x [Hx Hfx]]. apply in_seq in Hx.
      destruct IH as [n [Hn Hn']]; [exists x; split; [lia|auto]|].
      exists n; split; [lia|auto].
    + assert (G : forall x, (x < S B)%nat -> f x = false).
      { intros x Hx. destruct (f x) eqn:Ex; auto.
        assert (existsb f (seq 0 (S B)) = true); [|congruence].
        apply existsb_exists. exists x; split; auto. apply in_seq; lia. }
      exists (S B). split; [lia|]. split; [|intros; apply G; lia].
      destruct (Nat.eq_dec k (S B)) as [->|Hne]; auto. rewrite G in Hf; [discriminate|lia].
Qed.

Lemma loop_terminates m ds (c : Rclock) :
  lower m c -> at_end c = false -> now c < ts_final c ->
  exists n, (0 < n)%nat /\ INR n <= (ts_final c - now c) / m + 1 /\
    at_end (time_loop ds n c) = true /\
    now (time_loop ds n c) = ts_final c /\
    forall k, (k < n)%nat -> at_end (time_loop ds k c) = false /\
      now c + INR k * m <= now (time_loop ds k c) < ts_final c.
Proof.
  intros HL He Hlt.
  set (B := Z.to_nat (up ((ts_final c - now c) / m))).
  assert (Hm : 0 < m) by (destruct HL; auto).
  assert (Hq : 0 < (ts_final c - now c) / m) by (apply Rdiv_lt_0_compat; lra).
  assert (HB : (ts_final c - now c) / m < INR B).
  { unfold B. destruct (archimed ((ts_final c - now c) / m)) as [H1 _].
    rewrite INR_IZR_INZ, Z2Nat.id; [exact H1|].
    apply le_IZR. lra. }
  assert (Hex : exists k, (k <= B)%nat /\ at_end (time_loop ds k c) = true).
  { destruct (existsb (fun k => at_end (time_loop ds k c)) (seq 0 (S B))) eqn:E.
    - apply existsb_exists in E as [k [Hk Hf]]. apply in_seq in Hk. exists k; split; [lia|auto].
    - exfalso.
      assert (G : forall k, (k <= B)%nat -> at_end (time_loop ds k c) = false).
      { intros k Hk. destruct (at_end (time_loop ds k c)) eqn:Ek; auto.
        assert (X : existsb (fun k => at_end (time_loop ds k c)) (seq 0 (S B)) = true).
        { apply existsb_exists. exists k; split; auto. apply in_seq; lia. }
        congruence. }
      destruct (loop_progress m ds B c HL G) as (_ & P & Q & S).
      assert (HB0 : (0 < B)%nat).
      { destruct B; [|lia]. cbn in HB. lra. }
      specialize (S HB0).
      assert (INR B * m < ts_final c - now c) by lra.
      apply (Rmult_lt_compat_r m) in HB; auto.
      unfold Rdiv in HB. rewrite Rmult_assoc, Rinv_l in HB; lra. }
  destruct (first_true _ B Hex) as [n (Hn & Hn1 & Hn2)]. cbn beta in *.
  exists n. destruct n as [|n].
  { cbn in Hn1. congruence. }
  assert (P : forall k, (k <= n)%nat -> at_end (time_loop ds k c) = false)
    by (intros; apply Hn2; lia).
  destruct (loop_progress m ds n c HL P) as (P1 & P2 & P3 & P4).
  split; [lia|]. split.
  - rewrite S_INR. apply Rplus_le_compat_r.
    apply (Rmult_le_reg_r m); auto. unfold Rdiv. rewrite Rmult_assoc, Rinv_l by lra.
    destruct n as [|n']; [cbn; nra|]. specialize (P4 ltac:(lia)). lra.
  - split; [exact Hn1|]. split.
    + cbn [time_loop] in *. set (c' := time_loop ds n c) in *.
      destruct (adaptive_fields c' (ds n)) as (E & F & G).
      unfold adaptive_step in *.
      assert (He' : at_end (request c' (ds n)) = false).
      { destruct (ds n); unfold at_end; cbn; apply (P n); lia. }
      destruct (next_end_exact _ He' Hn1) as [X _]. rewrite X, G. exact P3.
    + intros k Hk. assert (Hkn : (k <= n)%nat) by lia.
      split; [apply P; lia|].
      destruct (loop_progress m ds k c HL) as (R1 & R2 & R3 & R4); [intros; apply P; lia|].
      split; [exact R2|]. destruct k; [cbn in *; lra|]. specialize (R4 ltac:(lia)). lra.
Qed.

(** positivity of steps in a run of next() *)
Lemma next_n_positive m (c : Rclock) n :
  lower m c -> (forall k, (k < n)%nat -> at_end (next_n k c) = false) -> now c < ts_final c ->
  (0 < n)%nat ->
  0 < step_size (next_n n c).
Proof.
  intros HL Hk Hlt Hn. destruct n as [|n]; [lia|].
  assert (E : forall k, next_n k c = time_loop (fun _ => None) k c).
  { clear. induction k as [|k IH]; [reflexivity|]. rewrite next_n_S, IH. reflexivity. }
  rewrite E. destruct (loop_progress m (fun _ => None) n c HL) as (A & B & C & D).
  { intros; rewrite <- E; apply Hk; lia. }
  cbn [time_loop]. unfold adaptive_step, request. rewrite next_step_diff.
  set (c' := time_loop _ n c) in *.
  destruct (at_end (next c')) eqn:He.
  - assert (He' : at_end c' = false) by (unfold c'; rewrite <- E; apply Hk; lia).
    destruct (next_end_exact c' He' He) as [X _]. rewrite X, C.
    destruct n; [cbn in *; unfold c'; cbn; lra|]. specialize (D ltac:(lia)). 
    destruct HL; lra.
  - destruct (lower_next m c' A He) as (_ & P & _). destruct HL; lra.
Qed.

(** closed form of the step size request *)
Lemma desired_clamp (c : Rclock) d :
  min_step_val c <= max_step_val c -> 0 < step_size c -> now c <> 0 ->
  exists s, is_clamp (step_size c / 2) (2 * step_size c) d s /\
            is_clamp (min_step_val c) (max_step_val c) s (step_size (set_desired_time_step c d)).
Proof.
  intros Hm Hp Hn. unfold now, step_size in *.
  exists (Rmin (2 * current_step_val c) (Rmax d (current_step_val c / 2))).
  assert (E : neqb (now_val c) (nlit (n:=RNum) 0) = false).
  { rnum. apply Reqb_false. q2r. intros X; apply Hn. rewrite X. field. }
  unfold is_clamp, set_desired_time_step; cbn [with_step current_step_val].
  unfold desired_step. rewrite E. unfold nmin, nmax; rnum. q2r.
  unfold Rmin, Rmax. clear E.
  rcase; repeat split; intros; rnum; lra.
Qed.

Lemma desired_bounds (c : Rclock) d :
  min_step_val c <= max_step_val c ->
  min_step_val c <= step_size (set_desired_time_step c d) <= max_step_val c.
Proof.
  intros Hm. unfold step_size; cbn [set_desired_time_step with_step current_step_val].
  unfold desired_step, nmin, nmax; rnum. rcase; lra.
Qed.

Lemma desired_next (c : Rclock) d :
  at_end c = false -> min_step_val c <= max_step_val c ->
  let c1 := set_desired_time_step c d in
  (at_end (next c1) = false -> step_size (next c1) = step_size c1) /\
  (0 < step_size c1 -> at_end (next c1) = true -> step_size (next c1) <= 1.01 * step_size c1).
Proof.
  intros He Hm c1. pose proof (desired_bounds c d Hm) as Hb.
  assert (Hs : next_s c1 = step_size c1).
  { unfold next_s, step_size, c1 in *; cbn [set_desired_time_step with_step current_step_val
      step_val max_step_val] in *.
    destruct (not_at_start _); auto. unfold ngtb; rnum.
    destruct (_ && _); match goal with |- context [Rltb ?a ?b] => destruct (Rltb_spec a b) end;
      lra. }
  split.
  - intros H. unfold at_end in H; cbn [next at_end_val] in H. apply orb_false_iff in H as [_ H].
    unfold step_size at 1; cbn [next current_step_val]. unfold next_step. rewrite H. exact Hs.
  - intros Hp H. unfold at_end in H; cbn [next at_end_val] in H.
    assert (Hc1 : at_end_val c1 = false) by exact He. rewrite Hc1 in H; cbn [orb] in H.
    unfold step_size at 1; cbn [next current_step_val]. unfold next_step. rewrite H.
    unfold next_hits_end in H. rewrite Hc1, Hs in H; cbn [negb andb] in H.
    unfold ngtb in H; rnum. apply Rltb_true in H. q2r. lra.
Qed.

(** BDF-2 weights *)
Lemma bdf_algebra a b d t c l : 0 < c -> 0 < l ->
  ((2 * c + l) / (c * (c + l))) * quad a b d t + (- ((c + l) / (c * l))) * quad a b d (t - c)
  + (c / (l * (c + l))) * quad a b d (t - c - l) = quad' a b d t.
Proof. intros Hc Hl. unfold quad, quad'. field. lra. Qed.

Lemma new_weight_bdf (c0 : Rclock) :
  let c1 := next c0 in let c2 := next c1 in
  ts_scheme c0 = bdf_2 -> now c1 <> ts_start c0 ->
  next_new_weight c1 = (2 * step_size c2 + step_size c1) / (step_size c2 * (step_size c2 + step_size c1)) /\
  weight_old c2 = - ((step_size c2 + step_size c1) / (step_size c2 * step_size c1)) /\
  weight_old_old c2 = step_size c2 / (step_size c1 * (step_size c2 + step_size c1)) /\
  next_last c1 = step_size c1 /\ old_step_size c2 = step_size c1.
Proof.
  intros c1 c2 Hs Hn. 
  assert (A : not_at_start c1 = true).
  { unfold not_at_start. rnum. apply negb_true_iff, Reqb_false. exact Hn. }
  assert (U : next_uses_bdf c1 = true).
  { unfold next_uses_bdf. rewrite A. unfold ts_scheme in Hs.
    change (scheme_val c1) with (scheme_val c0). rewrite Hs. reflexivity. }
  assert (L : next_last c1 = step_size c1) by (unfold next_last; rewrite A; reflexivity).
  unfold c2, weight_old, weight_old_old, old_step_size; cbn [next weight_old_val weight_old_old_val last_step_val].
  unfold step_size at 1 2 3; cbn [next current_step_val].
  unfold next_new_weight, next_weight_old, next_weight_old_old. rewrite U, L. rnum. q2r.
  repeat split; try reflexivity; unfold step_size; cbn [next current_step_val];
    rewrite ?Rinv_1, ?Rmult_1_r; reflexivity.
Qed.

Lemma weight_close (c : Rclock) : 0 < next_new_weight c ->
  Rabs (weight (next c) - next_new_weight c) <= next_new_weight c / 1000000000000.
Proof.
  intros Hp. unfold weight; cbn [next weight_val]. destruct (next_weight_changes c) eqn:E.
  - replace (next_new_weight c - next_new_weight c) with 0 by lra. rewrite Rabs_R0.
    apply Rlt_le, Rdiv_lt_0_compat; lra.
  - unfold next_weight_changes, ngtb in E; rnum. apply Rltb_false in E. q2r.
    apply (Rmult_le_compat_r (next_new_weight c)) in E; [|lra].
    unfold Rdiv in E at 1. rewrite Rmult_assoc, Rinv_l in E by lra.
    rewrite Rabs_minus_sym. lra.
Qed.

Lemma bdf2_exact (c0 : Rclock) :
  let c1 := next c0 in let c2 := next c1 in
  ts_scheme c0 = bdf_2 -> now c1 <> ts_start c0 -> 0 < step_size c1 -> 0 < step_size c2 ->
  exists w, 0 < w /\
    (forall a b d, w * quad a b d (now c2) + weight_old c2 * quad a b d (now c1)
       + weight_old_old c2 * quad a b d (now c0) = quad' a b d (now c2)) /\
    Rabs (weight c2 - w) <= w / 1000000000000 /\
    (weight_has_changed c2 = true -> weight c2 = w).
Proof.
  intros c1 c2 Hs Hn H1 H2.
  destruct (new_weight_bdf c0 Hs Hn) as (A & B & C & D & E).
  fold c1 in A, B, C, D, E. fold c2 in A, B, C, D, E.
  assert (Hw : 0 < next_new_weight c1).
  { rewrite A. apply Rdiv_lt_0_compat; [lra|]. apply Rmult_lt_0_compat; lra. }
  exists (next_new_weight c1). repeat split; auto.
  - intros a b d. rewrite A, B, C.
    rewrite <- (bdf_algebra a b d (now c2) (step_size c2) (step_size c1) H2 H1).
    replace (now c1) with (now c2 - step_size c2)
      by (unfold c2; rewrite next_step_diff; lra).
    replace (now c0) with (now c2 - step_size c2 - step_size c1)
      by (unfold c2; rewrite next_step_diff; unfold c1; rewrite next_step_diff; lra).
    reflexivity.
  - apply weight_close; auto.
  - apply weight_changed_exact.
Qed.

Lemma first_step_weights (c : Rclock) :
  next_uses_bdf c = false -> 0 < step_size (next c) ->
  exists w, 0 < w /\
    (forall a b, w * (a + b * now (next c)) + weight_old (next c) * (a + b * now c) = b) /\
    Rabs (weight (next c) - w) <= w / 1000000000000 /\
    (weight_has_changed (next c) = true -> weight (next c) = w).
Proof.
  intros U Hp. exists (next_new_weight c).
  assert (E : next_new_weight c = 1 / step_size (next c)).
  { unfold next_new_weight. rewrite U. unfold step_size; cbn [next current_step_val]. rnum. q2r. 
    field. unfold step_size in Hp; cbn [next current_step_val] in Hp. lra. }
  assert (Hw : 0 < next_new_weight c) by (rewrite E; apply Rdiv_lt_0_compat; lra).
  repeat split; auto.
  - intros a b. rewrite E. unfold weight_old; cbn [next weight_old_val].
    unfold next_weight_old. rewrite U. fold (step_size (next c)). rnum. q2r.
    replace (now c) with (now (next c) - step_size (next c)) by (rewrite next_step_diff; lra).
    unfold step_size in *; cbn [next current_step_val] in *. field. lra.
  - apply weight_close; auto.
  - apply weight_changed_exact.
Qed.

Lemma weights_sum_zero (c : Rclock) :
  0 < step_size (next c) -> 
  (ts_scheme c = bdf_2 -> now c <> ts_start c -> 0 < step_size c) ->
  (ts_scheme c = bdf_2 -> now c = ts_start c -> weight_old_old c = 0) ->
  (ts_scheme c <> bdf_2 -> weight_old_old c = 0) ->
  exists w, 0 < w /\ w + weight_old (next c) + weight_old_old (next c) = 0 /\
    Rabs (weight (next c) - w) <= w / 1000000000000 /\
    (weight_has_changed (next c) = true -> weight (next c) = w).
Proof.
  intros H1 H2 H3 H4.
  destruct (next_uses_bdf c) eqn:U.
  - assert (S : ts_scheme c = bdf_2 /\ now c <> ts_start c).
    { unfold next_uses_bdf, not_at_start in U. apply andb_true_iff in U as [U1 U2].
      split; [unfold ts_scheme; destruct (scheme_val c); auto; discriminate|].
      rnum. apply negb_true_iff, Reqb_false in U2. exact U2. }
    destruct S as [S1 S2]. specialize (H2 S1 S2).
    assert (L : next_last c = step_size c).
    { unfold next_last. unfold next_uses_bdf in U. apply andb_true_iff in U as [_ U]. rewrite U.
      reflexivity. }
    assert (E : next_new_weight c = (2 * step_size (next c) + step_size c) /
                (step_size (next c) * (step_size (next c) + step_size c))).
    { unfold next_new_weight. rewrite U, L. unfold step_size; cbn [next current_step_val]. rnum. q2r.
      rewrite ?Rinv_1, ?Rmult_1_r. reflexivity. }
    exists (next_new_weight c).
    assert (Hw : 0 < next_new_weight c).
    { rewrite E. apply Rdiv_lt_0_compat; [lra|]. apply Rmult_lt_0_compat; lra. }
    repeat split; auto.
    + rewrite E. unfold weight_old, weight_old_old; cbn [next weight_old_val weight_old_old_val].
      unfold next_weight_old, next_weight_old_old. rewrite U, L.
      unfold step_size in *; cbn [next current_step_val] in *. rnum. field. lra.
    + apply weight_close; auto.
    + apply weight_changed_exact.
  - destruct (first_step_weights c U H1) as (w & A & B & C & D).
    exists w; repeat split; auto.
    assert (W : weight_old_old (next c) = 0).
    { unfold weight_old_old; cbn [next weight_old_old_val]. unfold next_weight_old_old. rewrite U.
      destruct (scheme_eqb (scheme_val c) bdf_2) eqn:Es.
      - assert (Es' : ts_scheme c = bdf_2) by (unfold ts_scheme; destruct (scheme_val c); auto; discriminate).
        apply H3; auto. unfold next_uses_bdf, not_at_start in U. rewrite Es in U. cbn [andb] in U. rnum.
        apply negb_false_iff, Reqb_true in U. exact U.
      - apply H4. unfold ts_scheme. intros X; rewrite X in Es; discriminate. }
    rewrite W. specialize (B 1 0). lra.
Qed.

Lemma extrapolate_linear (c0 : Rclock) :
  let c1 := next c0 in let c2 := next c1 in
  (1 < step_no c1)%Z -> now c1 <> ts_start c0 -> step_size c1 <> 0 ->
  forall a b, extrapolate c2 (a + b * now c1) (a + b * now c0) = a + b * now c2.
Proof.
  intros c1 c2 Hn Hs Hp a b.
  assert (A : not_at_start c1 = true).
  { unfold not_at_start. rnum. apply negb_true_iff, Reqb_false. exact Hs. }
  assert (L : next_last c1 = step_size c1) by (unfold next_last; rewrite A; reflexivity).
  unfold extrapolate, c2; cbn [next factor_extrapol_old factor_extrapol_old_old].
  unfold step_no in Hn. apply Z.ltb_lt in Hn. rewrite Hn, L. rnum.
  fold (step_size (next c1)).
  replace (now (next c1)) with (now c1 + next_step c1).
  2:{ pose proof (next_step_diff c1) as X. unfold step_size in X; cbn [next current_step_val] in X. lra. }
  replace (now c0) with (now c1 - step_size c1) by (unfold c1; rewrite next_step_diff; lra).
  field. exact Hp.
Qed.

Lemma extrapolate_first (c : Rclock) o oo :
  (step_no c <= 1)%Z -> extrapolate (next c) o oo = o.
Proof.
  intros H. unfold extrapolate; cbn [next factor_extrapol_old factor_extrapol_old_old].
  destruct (Z.ltb_spec 1 (step_no_val c)); [unfold step_no in H; lia|]. rnum. q2r. lra.
Qed.

Lemma extrapolate_sum (c : Rclock) :
  next_last c <> 0 \/ (step_no c <= 1)%Z -> forall v, extrapolate (next c) v v = v.
Proof.
  intros H v. destruct (Z.ltb_spec 1 (step_no c)) as [H1|H1].
  - destruct H as [H|H]; [|lia]. unfold extrapolate; cbn [next factor_extrapol_old factor_extrapol_old_old].
    unfold step_no in H1. apply Z.ltb_lt in H1. rewrite H1. rnum. field. exact H.
  - apply extrapolate_first; lia.
Qed.

(** at_tick *)
Lemma at_tick_sound (c : Rclock) tick :
  0 < tick -> 0 <= now c -> now c * 1.0000000001 / tick < 2147483647 ->
  exists r, at_tick c tick = Some r /\
   (at_end c = true -> r = true) /\
   ((exists k : Z, now c - 0.95 * step_size c <= IZR k * tick <= now c) -> r = true) /\
   (at_end c = false -> r = true ->
      exists k : Z, now c - 0.95 * step_size c <= IZR k * tick <= now c * 1.0000000001).
Proof.
  intros Ht Hn Hr. unfold at_tick. rnum. q2r.
  set (x := now c * (10000000001 * / 10000000000) / tick).
  assert (Hx : 0 <= x).
  { unfold x, Rdiv. apply Rmult_le_pos; [nra|]. apply Rlt_le, Rinv_0_lt_compat; auto. }
  assert (Hx2 : x < 2147483647).
  { unfold x. replace (now c * (10000000001 * / 10000000000)) with (now c * 1.0000000001) by lra. exact Hr. }
  destruct (Rtrunc_nonneg x Hx) as [T1 T2].
  assert (R1 : (0 <= Rtrunc x)%Z).
  { assert (IZR (-1) < IZR (Rtrunc x)) by (simpl; lra). apply lt_IZR in H. lia. }
  assert (R2 : (Rtrunc x <= 2147483647)%Z).
  { apply le_IZR. lra. }
  rewrite int_range_Some by lia.
  eexists; split; [reflexivity|].
  assert (Hxt : x * tick = now c * 1.0000000001).
  { unfold x, Rdiv. rewrite Rmult_assoc, Rinv_l by lra. lra. }
  unfold ngtb; rnum.
  split; [|split].
  - intros ->. rewrite andb_false_r. reflexivity.
  - intros [k [K1 K2]].
    match goal with |- context [Rltb ?a ?b] => destruct (Rltb_spec a b) as [L|L] end; auto.
    exfalso.
    assert (Hk : (k <= Rtrunc x)%Z).
    { assert (IZR k < IZR (Rtrunc x + 1)).
      { rewrite plus_IZR. apply (Rmult_lt_reg_r tick); auto.
        assert (IZR k * tick <= x * tick) by nra. nra. }
      apply lt_IZR in H. lia. }
    apply IZR_le in Hk. nra.
  - intros He. rewrite He, andb_true_r.
    match goal with |- context [Rltb ?a ?b] => destruct (Rltb_spec a b) as [L|L] end;
      [discriminate|]. intros _. exists (Rtrunc x). split.
    + rewrite Rinv_1, Rmult_1_r in L. lra.
    + assert (IZR (Rtrunc x) * tick <= x * tick) by (apply Rmult_le_compat_r; lra). lra.
Qed.

(** ** binary64: a clock whose step is absorbed by rounding *)
Record stuck (c : clock FNum) : Prop := {
  st_now : now_val c = Fof_Z 100000000000000000; st_start : start_val c = Fof_Z 100000000000000000;
  st_fin : final_val c = Fof_Z 200000000000000000; st_cur : current_step_val c = Fof_Z 1;
  st_end : at_end_val c = false }.

Lemma stuck_next c : stuck c -> stuck (next c).
Proof.
  intros [H1 H2 H3 H4 H5].
  assert (A : not_at_start c = false) by (unfold not_at_start; rewrite H1, H2; vm_compute; reflexivity).
  assert (B : next_s c = Fof_Z 1) by (unfold next_s; rewrite A; exact H4).
  assert (C : next_hits_end c = false).
  { unfold next_hits_end. rewrite H5, H1, B, H3. vm_compute. reflexivity. }
  constructor; cbn [next now_val start_val final_val current_step_val at_end_val]; auto.
  - unfold next_time. rewrite C, H1, B. vm_compute. reflexivity.
  - unfold next_step. rewrite C. exact B.
  - rewrite H5, C. reflexivity.
Qed.

Lemma stuck_forever c n : stuck c -> stuck (next_n n c).
Proof. revert c; induction n as [|n IH]; intros c H; [exact H|]. apply IH, stuck_next, H. Qed.
