(** * Clocks are transported along homomorphisms of the arithmetic
    (used to evaluate witnesses over R by computing over Q) *)
From Coq Require Import ZArith QArith Reals Bool List.
From Verif Require Import Num NumQ Model_TimeStepping.
Import ListNotations.

Section Map.
Context {A B : Num} (f : A -> B) (Hf : num_hom A B f).

Definition map_params (p : ts_params A) : ts_params B :=
  MkTP (N:=B) (tp_scheme p) (f (tp_start p)) (f (tp_end p)) (f (tp_step_start p))
       (f (tp_step_max p)) (f (tp_step_min p)).
Definition map_clock (c : clock A) : clock B := {|
  start_val := f (start_val c); final_val := f (final_val c); scheme_val := scheme_val c;
  start_step_val := f (start_step_val c); max_step_val := f (max_step_val c);
  min_step_val := f (min_step_val c);
  current_step_val := f (current_step_val c); last_step_val := f (last_step_val c);
  step_val := f (step_val c);
  weight_val := f (weight_val c); weight_old_val := f (weight_old_val c);
  weight_old_old_val := f (weight_old_old_val c);
  factor_extrapol_old := f (factor_extrapol_old c);
  factor_extrapol_old_old := f (factor_extrapol_old_old c);
  step_no_val := step_no_val c; at_end_val := at_end_val c; weight_changed := weight_changed c;
  now_val := f (now_val c); prev_val := f (prev_val c);
  tau1_val := f (tau1_val c); tau2_val := f (tau2_val c) |}.
Definition map_op (o : op A) : op B :=
  match o with
  | Next => Next | SetTimeStep v => SetTimeStep (f v) | SetDesired v => SetDesired (f v)
  | SetStart t => SetStart (f t) | SetFinal t => SetFinal (f t) | Restart => Restart
  end.

Ltac push := rewrite ?(h_add _ _ _ Hf), ?(h_sub _ _ _ Hf), ?(h_mul _ _ _ Hf), ?(h_div _ _ _ Hf),
  ?(h_opp _ _ _ Hf), ?(h_abs _ _ _ Hf), ?(h_lit _ _ _ Hf).

Lemma map_if (b : bool) x y : f (if b then x else y) = if b then f x else f y.
Proof. destruct b; reflexivity. Qed.

Lemma map_init p : map_clock (ts_init p) = ts_init (map_params p).
Proof.
  unfold map_clock, ts_init, tau1_of, tau2_of; cbn.
  destruct (tp_scheme p); cbn; repeat (push; try reflexivity).
Qed.

Lemma map_next_s c : next_s (map_clock c) = f (next_s c).
Proof.
  unfold next_s, not_at_start, ngtb; cbn. rewrite (h_eqb _ _ _ Hf).
  destruct (neqb _ _); cbn; auto.
  destruct (scheme_eqb (scheme_val c) bdf_2 && (step_no_val c =? 1)%Z);
    rewrite (h_ltb _ _ _ Hf); destruct (nltb _ _); reflexivity.
Qed.
Lemma map_next_last c : next_last (map_clock c) = f (next_last c).
Proof.
  unfold next_last, not_at_start; cbn. rewrite (h_eqb _ _ _ Hf).
  destruct (neqb _ _); reflexivity.
Qed.
Lemma map_hits c : next_hits_end (map_clock c) = next_hits_end c.
Proof.
  unfold next_hits_end, ngtb. rewrite map_next_s; cbn. rewrite <- (h_lit _ _ _ Hf).
  rewrite <- (h_mul _ _ _ Hf), <- (h_sub _ _ _ Hf), <- (h_add _ _ _ Hf), (h_ltb _ _ _ Hf).
  reflexivity.
Qed.
Lemma map_step c : next_step (map_clock c) = f (next_step c).
Proof.
  unfold next_step. rewrite map_hits, map_next_s. destruct (next_hits_end c); auto. cbn.
  push; reflexivity.
Qed.
Lemma map_time c : next_time (map_clock c) = f (next_time c).
Proof.
  unfold next_time. rewrite map_hits, map_next_s. destruct (next_hits_end c); auto. cbn.
  push; reflexivity.
Qed.
Lemma map_uses c : next_uses_bdf (map_clock c) = next_uses_bdf c.
Proof. unfold next_uses_bdf, not_at_start; cbn. rewrite (h_eqb _ _ _ Hf). reflexivity. Qed.
Lemma map_new_weight c : next_new_weight (map_clock c) = f (next_new_weight c).
Proof.
  unfold next_new_weight. rewrite map_uses, map_step, map_next_last.
  destruct (next_uses_bdf c); repeat push; reflexivity.
Qed.
Lemma map_changes c : next_weight_changes (map_clock c) = next_weight_changes c.
Proof.
  unfold next_weight_changes, ngtb. rewrite map_new_weight; cbn.
  rewrite <- (h_sub _ _ _ Hf), <- (h_abs _ _ _ Hf), <- (h_div _ _ _ Hf), <- (h_lit _ _ _ Hf).
  apply (h_ltb _ _ _ Hf).
Qed.
Lemma map_next c : map_clock (next c) = next (map_clock c).
Proof.
  unfold next. rewrite map_step, map_next_last, map_hits, map_time, map_changes, map_new_weight.
  unfold map_clock at 1; cbn. f_equal.
  - apply map_if.
  - unfold next_weight_old. rewrite map_uses, map_step, map_next_last.
    destruct (next_uses_bdf c); repeat push; reflexivity.
  - unfold next_weight_old_old. rewrite map_uses, map_step, map_next_last.
    destruct (next_uses_bdf c); repeat push; reflexivity.
  - rewrite map_if. repeat push. reflexivity.
  - rewrite map_if. repeat push. reflexivity.
Qed.
Lemma map_restart c : map_clock (restart c) = restart (map_clock c).
Proof.
  unfold restart. unfold map_clock at 1; cbn. f_equal; repeat push; try reflexivity.
  rewrite <- (h_sub _ _ _ Hf), <- (h_div _ _ _ Hf), <- (h_lit _ _ _ Hf).
  symmetry; apply (h_ltb _ _ _ Hf).
Qed.
Lemma map_nmin x y : f (nmin x y) = nmin (f x) (f y).
Proof. unfold nmin. rewrite (h_ltb _ _ _ Hf). apply map_if. Qed.
Lemma map_nmax x y : f (nmax x y) = nmax (f x) (f y).
Proof. unfold nmax. rewrite (h_ltb _ _ _ Hf). apply map_if. Qed.
Lemma map_desired c d : desired_step (map_clock c) (f d) = f (desired_step c d).
Proof.
  unfold desired_step; cbn. rewrite <- (h_lit _ _ _ Hf 0), (h_eqb _ _ _ Hf).
  rewrite !map_nmin, !map_nmax, map_nmin, map_nmax.
  repeat push. rewrite map_if. reflexivity.
Qed.
Lemma map_apply c o : map_clock (apply_op c o) = apply_op (map_clock c) (map_op o).
Proof.
  destruct o; cbn [apply_op map_op].
  - apply map_next.
  - reflexivity.
  - unfold set_desired_time_step. rewrite map_desired. reflexivity.
  - reflexivity.
  - reflexivity.
  - apply map_restart.
Qed.
Lemma map_run c h : map_clock (run c h) = run (map_clock c) (map map_op h).
Proof.
  revert c; induction h as [|o h IH]; intros c; [reflexivity|].
  unfold run in *; cbn [fold_left map]. rewrite IH, map_apply. reflexivity.
Qed.
Lemma map_run_init p h : run (ts_init (map_params p)) (map map_op h) = map_clock (run (ts_init p) h).
Proof. rewrite map_run, map_init. reflexivity. Qed.
End Map.

Arguments map_params {A B}. Arguments map_clock {A B}. Arguments map_op {A B}.
Notation qparams := (@map_params QNum RNum Q2R).
Notation qclk := (@map_clock QNum RNum Q2R).
Notation qop := (@map_op QNum RNum Q2R).
