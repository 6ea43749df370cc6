(** * Property theorems C85, C86: fields across mesh refinement, state after setup *)
From Coq Require Import Reals QArith List Bool ZArith Arith Lia Lra FunctionalExtensionality.
From Verif Require Import Num Model_TimeStepping Model_NonlinearSolver Model_Bubble Properties_Bubble Model_Transfer.
Import ListNotations.
Open Scope R_scope.

(** ** Specification *)
Definition linear (f : field -> field) : Prop :=
  forall a b x y, f (fun i => a * x i + b * y i) = (fun i => a * f x i + b * f y i).
Definition linear_env (e : env) : Prop :=
  forall g, linear (transfer_u e g) /\ linear (transfer_p e g) /\ linear (transfer_l e g) /\
            linear (hanging_u e g) /\ linear (hanging_p e g) /\ linear (hanging_l e g).
(** a velocity, pressure or level set field of generation g seen on generation g+1: made continuous, transferred, made continuous *)
Definition velocity_on_new_mesh (e : env) (g : nat) (x : field) : field := hanging_u e (S g) (transfer_u e g (hanging_u e g x)).
Definition pressure_on_new_mesh (e : env) (g : nat) (x : field) : field := hanging_p e (S g) (transfer_p e g (hanging_p e g x)).
Definition level_set_on_new_mesh (e : env) (g : nat) (x : field) : field := hanging_l e (S g) (transfer_l e g x).

(** ** C85 *)
(** each stage on the vectors it concerns *)
Lemma apply_two b f v : (b < 2)%nat -> forall n b', apply_to [(Sol, b); (Old, b)] f v n b' =
  if Nat.eqb b b' then match n with Sol => f (v Sol b) | Old => f (v Old b) | _ => v n b' end else v n b'.
Proof. intros _ n b'. unfold apply_to, get_all. cbn. unfold put. destruct (Nat.eqb_spec b b') as [->|]; destruct n; cbn; auto. Qed.
Lemma apply_one m b f v : forall n b', apply_to [(m, b)] f v n b' = if vname_eqb m n && Nat.eqb b b' then f (v m b) else v n b'.
Proof. intros n b'. reflexivity. Qed.
Lemma prepare_spec e s : let s' := prepare_coarsening_and_refinement e s in let g := generation s in
  generation s' = g /\ tp s' = tp s /\
  sol_trans_u s' = Some [hanging_u e g (ns s Sol 0%nat); hanging_u e g (ns s Old 0%nat)] /\
  sol_trans_p s' = Some ([hanging_p e g (ns s Sol 1%nat); hanging_p e g (ns s Old 1%nat)] ++ if projection e then [hanging_p e g (ns s OldOld 1%nat)] else []).
Proof.
  cbv zeta. unfold prepare_coarsening_and_refinement, pressure_targets, velocity_targets.
  set (v1 := apply_to [(Sol, 0%nat); (Old, 0%nat)] (hanging_u e (generation s)) (ns s)).
  assert (H1 : forall n b, v1 n b = _) by (intros n b; unfold v1; apply (apply_two 0%nat); lia). clearbody v1.
  set (v2 := apply_to [(Sol, 1%nat); (Old, 1%nat)] (hanging_p e (generation s)) v1).
  assert (H2 : forall n b, v2 n b = _) by (intros n b; unfold v2; apply (apply_two 1%nat); lia). clearbody v2.
  cbn [generation tp sol_trans_u sol_trans_p]. split; [auto|]. split; [auto|]. destruct (projection e).
  - set (v3 := apply_to [(OldOld, 1%nat)] (hanging_p e (generation s)) v2).
    assert (H3 : forall n b, v3 n b = _) by (intros n b; unfold v3; apply apply_one). clearbody v3.
    cbn [get_all map app fst snd]. rewrite !H3. cbn. rewrite !H2. cbn. rewrite !H1. cbn. auto.
  - cbn [get_all map app fst snd]. rewrite !H2. cbn. rewrite !H1. cbn. auto.
Qed.
Lemma initialize_spec e s xs xo ps po poo : (0 < generation s)%nat -> sol_trans_u s = Some [xs; xo] -> sol_trans_p s = Some ([ps; po] ++ if projection e then [poo] else []) ->
  let s' := initialize_matrix_free e s in let g := generation s in
  generation s' = g /\ sol_trans_u s' = None /\ sol_trans_p s' = None /\ system_is_setup s' = system_is_setup s /\ update_preconditioner s' = update_preconditioner s /\
  ns s' Sol 0%nat = hanging_u e g (transfer_u e (g - 1) xs) /\ ns s' Old 0%nat = hanging_u e g (transfer_u e (g - 1) xo) /\
  ns s' Sol 1%nat = hanging_p e g (transfer_p e (g - 1) ps) /\ ns s' Old 1%nat = hanging_p e g (transfer_p e (g - 1) po) /\
  (projection e = true -> ns s' OldOld 1%nat = hanging_p e g (transfer_p e (g - 1) poo)) /\ (forall b, ns s' UserRhs b = zero).
Proof.
  intros _ Hu Hp. cbv zeta. unfold initialize_matrix_free, pressure_targets, velocity_targets. rewrite Hu, Hp.
  set (v1 := put_all [(Sol, 0%nat); (Old, 0%nat)] (map (transfer_u e (generation s - 1)) [xs; xo]) new_vectors).
  assert (H1 : v1 Sol 0%nat = transfer_u e (generation s - 1) xs /\ v1 Old 0%nat = transfer_u e (generation s - 1) xo /\ forall b, v1 UserRhs b = zero) by (split; [|split]; reflexivity).
  clearbody v1. destruct H1 as (A1 & A2 & A3).
  set (v2 := apply_to [(Sol, 0%nat); (Old, 0%nat)] (hanging_u e (generation s)) v1).
  assert (H2 : forall n b, v2 n b = _) by (intros n b; unfold v2; apply (apply_two 0%nat); lia). clearbody v2.
  assert (B1 : v2 Sol 0%nat = hanging_u e (generation s) (transfer_u e (generation s - 1) xs)) by (rewrite H2; cbn; rewrite A1; auto).
  assert (B2 : v2 Old 0%nat = hanging_u e (generation s) (transfer_u e (generation s - 1) xo)) by (rewrite H2; cbn; rewrite A2; auto).
  assert (B3 : forall b, v2 UserRhs b = zero) by (intros b; rewrite H2; destruct (Nat.eqb 0 b); apply A3). clear H2 A1 A2 A3 v1.
  cbn [generation sol_trans_u sol_trans_p system_is_setup update_preconditioner ns].
  split; [auto|]. split; [auto|]. split; [auto|]. split; [auto|]. split; [auto|].
  destruct (projection e); cbn [app map put_all].
  - set (v3 := put OldOld 1%nat (transfer_p e (generation s - 1) poo) (put Old 1%nat (transfer_p e (generation s - 1) po) (put Sol 1%nat (transfer_p e (generation s - 1) ps) v2))).
    assert (C : v3 Sol 0%nat = v2 Sol 0%nat /\ v3 Old 0%nat = v2 Old 0%nat /\ (forall b, v3 UserRhs b = v2 UserRhs b) /\ v3 Sol 1%nat = transfer_p e (generation s - 1) ps /\ v3 Old 1%nat = transfer_p e (generation s - 1) po /\ v3 OldOld 1%nat = transfer_p e (generation s - 1) poo) by (repeat split; reflexivity).
    clearbody v3. destruct C as (C1 & C2 & C3 & C4 & C5 & C6). rewrite ?apply_one; cbn; rewrite ?apply_one; cbn; rewrite ?apply_one; cbn.
    rewrite C1, C2, C4, C5, C6, B1, B2. repeat split; auto. intros b. rewrite ?apply_one; cbn; rewrite ?apply_one; cbn; rewrite ?apply_one; cbn. rewrite C3. apply B3.
  - set (v3 := put Old 1%nat (transfer_p e (generation s - 1) po) (put Sol 1%nat (transfer_p e (generation s - 1) ps) v2)).
    assert (C : v3 Sol 0%nat = v2 Sol 0%nat /\ v3 Old 0%nat = v2 Old 0%nat /\ (forall b, v3 UserRhs b = v2 UserRhs b) /\ v3 Sol 1%nat = transfer_p e (generation s - 1) ps /\ v3 Old 1%nat = transfer_p e (generation s - 1) po) by (repeat split; reflexivity).
    clearbody v3. destruct C as (C1 & C2 & C3 & C4 & C5). rewrite ?apply_one; cbn; rewrite ?apply_one; cbn.
    rewrite C1, C2, C4, C5, B1, B2. split; [auto|]. split; [auto|]. split; [auto|]. split; [auto|]. split; [discriminate|]. intros b. rewrite ?apply_one; cbn; rewrite ?apply_one; cbn. rewrite C3. apply B3.
Qed.
(** Every field and its old time level is the transferred one of the same field; the system is set up again and the next nonlinear
    solve builds a new preconditioner.  Without marked cells nothing happens. *)
Theorem C85_fields_survive : forall e s,
  refine_grid e false s = s /\
  let g := generation s in let s' := refine_grid e true s in
  generation s' = S g /\ system_is_setup s' = true /\ update_preconditioner s' = true /\ sol_trans_u s' = None /\ sol_trans_p s' = None /\
  (forall n, n = Sol \/ n = Old ->
     ns s' n 0%nat = velocity_on_new_mesh e g (ns s n 0%nat) /\
     ns s' n 1%nat = pressure_on_new_mesh e g (ns s n 1%nat) /\
     tp s' n 0%nat = level_set_on_new_mesh e g (tp s n 0%nat) /\
     tp s' n 1%nat = transfer_l e g (tp s n 1%nat)) /\
  (projection e = true -> ns s' OldOld 1%nat = pressure_on_new_mesh e g (ns s OldOld 1%nat)).
Proof.
  intros e s. split; [reflexivity|]. cbv zeta. unfold refine_grid.
  destruct (prepare_spec e s) as (G1 & T1 & U1 & P1). set (s1 := prepare_coarsening_and_refinement e s) in *. clearbody s1.
  set (s2 := ns_distribute_dofs (execute_coarsening_and_refinement s1)).
  assert (H2 : generation s2 = S (generation s) /\ sol_trans_u s2 = sol_trans_u s1 /\ sol_trans_p s2 = sol_trans_p s1 /\ system_is_setup s2 = false) by (unfold s2; cbn; rewrite G1; auto).
  clearbody s2. destruct H2 as (G2 & U2 & P2 & Y2). unfold tp_initialize_data_structures, ns_initialize_data_structures. rewrite Y2.
  set (s3 := MkState (generation s2) (ns s2) (tp s2) (sol_trans_u s2) (sol_trans_p s2) true true).
  assert (H3 : generation s3 = S (generation s) /\ sol_trans_u s3 = sol_trans_u s1 /\ sol_trans_p s3 = sol_trans_p s1 /\ system_is_setup s3 = true /\ update_preconditioner s3 = true) by (unfold s3; cbn; auto).
  clearbody s3. destruct H3 as (G3 & U3 & P3 & Y3 & Z3).
  destruct (initialize_spec e s3 (hanging_u e (generation s) (ns s Sol 0%nat)) (hanging_u e (generation s) (ns s Old 0%nat))
    (hanging_p e (generation s) (ns s Sol 1%nat)) (hanging_p e (generation s) (ns s Old 1%nat)) (hanging_p e (generation s) (ns s OldOld 1%nat)))
    as (G4 & U4 & P4 & Y4 & Z4 & N1 & N2 & N3 & N4 & N5 & _); try congruence; [rewrite G3; lia|].
  set (s4 := initialize_matrix_free e s3) in *. clearbody s4. rewrite G3 in *.
  replace (S (generation s) - 1)%nat with (generation s) in * by lia.
  cbn [with_tp generation ns tp sol_trans_u sol_trans_p system_is_setup update_preconditioner]. rewrite G4.
  replace (S (generation s) - 1)%nat with (generation s) by lia.
  split; [auto|]. split; [congruence|]. split; [congruence|]. split; [auto|]. split; [auto|]. split; [|exact N5].
  intros n [-> | ->]; (split; [assumption|]); (split; [assumption|]); split; reflexivity.
Qed.
Print Assumptions C85_fields_survive.

Lemma comp_linear f h : linear f -> linear h -> linear (fun x => f (h x)).
Proof. intros F H a b x y. rewrite H, F. reflexivity. Qed.
Lemma linear_zero f : linear f -> f zero = zero.
Proof.
  intros F. specialize (F 0 0 zero zero). unfold zero in *. replace (fun _ : nat => 0 * 0 + 0 * 0) with (fun _ : nat => 0) in F by (extensionality i; ring).
  rewrite F. extensionality i. ring.
Qed.
Lemma linear3 f a b d (x y z : field) : linear f -> f (fun i => a * x i + b * y i + d * z i) = (fun i => a * f x i + b * f y i + d * f z i).
Proof.
  intros F. replace (fun i => a * x i + b * y i + d * z i) with (fun i => 1 * (fun i => a * x i + b * y i) i + d * z i) by (extensionality i; ring).
  rewrite F, F. extensionality i. ring.
Qed.
Lemma extrapolate_linear (c : clock RNum) f (x y : field) : linear f ->
  f (fun i => extrapolate (N:=RNum) c (x i) (y i)) = (fun i => extrapolate (N:=RNum) c (f x i) (f y i)).
Proof.
  intros F. unfold extrapolate. rnum.
  replace (fun i => x i * factor_extrapol_old c + y i * factor_extrapol_old_old c) with (fun i => factor_extrapol_old c * x i + factor_extrapol_old_old c * y i)
    by (extensionality i; rnum; ring).
  rewrite F. extensionality i. rnum. ring.
Qed.
Lemma pressure_guess_linear (c : clock RNum) f (x y z : field) : linear f ->
  f (fun i => pressure_guess (N:=RNum) c (x i) (y i) (z i)) = (fun i => pressure_guess (N:=RNum) c (f x i) (f y i) (f z i)).
Proof.
  intros F. unfold pressure_guess. rnum. set (A := weight_old c / weight c). set (B := weight_old_old c / weight c).
  replace (fun i => x i - A * y i - B * z i) with (fun i => 1 * x i + (- A) * y i + (- B) * z i) by (extensionality i; rnum; ring).
  rewrite linear3 by auto. extensionality i. rnum. ring.
Qed.
Lemma level_set_guess_linear dt dto f (x y : field) : linear f ->
  f (fst (fst (init_time_advance dt dto x y))) = fst (fst (init_time_advance dt dto (f x) (f y))).
Proof. intros F. unfold init_time_advance. cbn. destruct (Rltb 0 dto); [|reflexivity]. rewrite F. reflexivity. Qed.

(** Refining before a time step or after its start gives the same: with linear transfer operators the start of the next time step on the
    new mesh (extrapolated guesses and both old time levels) is the transferred start of the time step on the old mesh. In particular the
    vectors that are not transferred are not missed. *)
Theorem C85_next_step_commutes : forall e c s, linear_env e ->
  let g := generation s in
  let after := tp_init_time_advance e c (refine_grid e true s) in
  let before := tp_init_time_advance e c s in
  forall n, n = Sol \/ n = Old \/ n = OldOld ->
    ns after n 0%nat = velocity_on_new_mesh e g (ns before n 0%nat) /\
    ns after n 1%nat = pressure_on_new_mesh e g (ns before n 1%nat) /\
    tp after n 0%nat = level_set_on_new_mesh e g (tp before n 0%nat) /\
    tp after n 1%nat = transfer_l e g (tp before n 1%nat).
Proof.
  intros e c s L. cbv zeta. intros n Hn.
  destruct (C85_fields_survive e s) as (_ & H). cbv zeta in H. destruct H as (_ & _ & _ & _ & _ & HF & HO).
  destruct (HF Sol (or_introl eq_refl)) as (A1 & A2 & A3 & A4). destruct (HF Old (or_intror eq_refl)) as (B1 & B2 & B3 & B4). clear HF.
  set (s' := refine_grid e true s) in *. clearbody s'.
  destruct (L (generation s)) as (T1 & T2 & T3 & D1 & D2 & D3). destruct (L (S (generation s))) as (_ & _ & _ & E1 & E2 & E3).
  assert (LU : linear (velocity_on_new_mesh e (generation s))) by (unfold velocity_on_new_mesh; apply (comp_linear (hanging_u e (S (generation s))) (fun x => transfer_u e (generation s) (hanging_u e (generation s) x))); auto; apply comp_linear; auto).
  assert (LP : linear (pressure_on_new_mesh e (generation s))) by (unfold pressure_on_new_mesh; apply (comp_linear (hanging_p e (S (generation s))) (fun x => transfer_p e (generation s) (hanging_p e (generation s) x))); auto; apply comp_linear; auto).
  assert (LL : linear (level_set_on_new_mesh e (generation s))) by (unfold level_set_on_new_mesh; apply comp_linear; auto).
  unfold tp_init_time_advance, ns_init_time_advance. cbn [ns tp with_ns with_tp].
  set (VU := velocity_on_new_mesh e (generation s)) in *. set (VP := pressure_on_new_mesh e (generation s)) in *. set (VL := level_set_on_new_mesh e (generation s)) in *.
  set (TL := transfer_l e (generation s)) in *. clearbody VU VP VL TL.
  assert (TP : forall b f, linear f -> (forall m, m = Sol \/ m = Old -> tp s' m b = f (tp s m b)) -> forall v v', (forall m, v m b = tp s m b) -> (forall m, v' m b = tp s' m b) ->
    shift_level_set c b v' n b = f (shift_level_set c b v n b)).
  { intros b f F Hf v v' Hv Hv'. unfold shift_level_set. rewrite !Hv, !Hv', (Hf Sol (or_introl eq_refl)), (Hf Old (or_intror eq_refl)).
    destruct (init_time_advance (step_size c) (old_step_size c) (f (tp s Sol b)) (f (tp s Old b))) as [[x1 y1] z1] eqn:I1.
    destruct (init_time_advance (step_size c) (old_step_size c) (tp s Sol b) (tp s Old b)) as [[x2 y2] z2] eqn:I2.
    pose proof (level_set_guess_linear (step_size c) (old_step_size c) f (tp s Sol b) (tp s Old b) F) as Q. rewrite I1, I2 in Q. cbn in Q.
    unfold init_time_advance in I1, I2. injection I1 as _ <- <-. injection I2 as _ <- <-.
    unfold put. rewrite Nat.eqb_refl. destruct Hn as [-> | [-> | ->]]; cbn; auto. }
  split; [|split; [|split]].
  - assert (R : forall w, (if projection e then shift_projection c (shift_block c 0%nat w) else shift_block c 1%nat (shift_block c 0%nat w)) n 0%nat = shift_block c 0%nat w n 0%nat).
    { intros w. destruct (projection e); [|destruct Hn as [-> | [-> | ->]]; reflexivity]. unfold shift_projection.
      destruct (1 <? step_no c)%Z; [|destruct (step_no c =? 1)%Z]; destruct Hn as [-> | [-> | ->]]; reflexivity. }
    rewrite !R. unfold shift_block. destruct Hn as [-> | [-> | ->]]; cbn.
    + rewrite A1, B1. symmetry. apply (extrapolate_linear c VU (ns s Sol 0%nat) (ns s Old 0%nat) LU).
    + auto.
    + auto.
  - destruct (projection e) eqn:P.
    + specialize (HO eq_refl). unfold shift_projection. destruct (1 <? step_no c)%Z; [|destruct (step_no c =? 1)%Z]; destruct Hn as [-> | [-> | ->]]; cbn.
      * rewrite A2, B2, HO. symmetry. apply (pressure_guess_linear c VP (ns s Sol 1%nat) (ns s Old 1%nat) (ns s OldOld 1%nat) LP).
      * auto.
      * auto.
      * auto.
      * rewrite linear_zero; auto.
      * rewrite linear_zero; auto.
      * auto.
      * auto.
      * auto.
    + unfold shift_block. destruct Hn as [-> | [-> | ->]]; cbn.
      * rewrite A2, B2. symmetry. apply (extrapolate_linear c VP (ns s Sol 1%nat) (ns s Old 1%nat) LP).
      * auto.
      * auto.
  - transitivity (shift_level_set c 0%nat (tp s') n 0%nat); [destruct Hn as [-> | [-> | ->]]; reflexivity|].
    transitivity (VL (shift_level_set c 0%nat (tp s) n 0%nat)); [|f_equal; destruct Hn as [-> | [-> | ->]]; reflexivity].
    apply (TP 0%nat VL LL); [intros m [-> | ->]; auto|intros m; reflexivity|intros m; reflexivity].
  - apply (TP 1%nat TL T3); [intros m [-> | ->]; auto| |]; intros m; unfold shift_level_set, init_time_advance, put; destruct m; reflexivity.
Qed.
Print Assumptions C85_next_step_commutes.

Lemma put_same n b x v : put n b x v n b = x.
Proof. unfold put. rewrite Nat.eqb_refl. destruct n; reflexivity. Qed.
Lemma put_block n b x v n' b' : b <> b' -> put n b x v n' b' = v n' b'.
Proof. intros H. unfold put. destruct (Nat.eqb_spec b b'); [contradiction|]. rewrite andb_false_r. reflexivity. Qed.
Lemma put_name n b x v n' b' : vname_eqb n n' = false -> put n b x v n' b' = v n' b'.
Proof. intros H. unfold put. rewrite H. reflexivity. Qed.
Ltac putnorm := repeat first [rewrite put_same | rewrite put_name by reflexivity | rewrite put_block by discriminate].
Lemma shift_block_ext c b v v' n : v Sol b = v' Sol b -> v Old b = v' Old b -> n = Sol \/ n = Old \/ n = OldOld -> shift_block c b v n b = shift_block c b v' n b.
Proof. intros H1 H2 Hn. unfold shift_block. rewrite H1, H2. destruct Hn as [-> | [-> | ->]]; putnorm; reflexivity. Qed.
Lemma shift_level_set_ext c b v v' n : v Sol b = v' Sol b -> v Old b = v' Old b -> n = Sol \/ n = Old \/ n = OldOld -> shift_level_set c b v n b = shift_level_set c b v' n b.
Proof. intros H1 H2 Hn. unfold shift_level_set. rewrite H1, H2. destruct (init_time_advance _ _ _ _) as [[x y] z]. destruct Hn as [-> | [-> | ->]]; putnorm; reflexivity. Qed.
Lemma shift_block_other c b b' v n : b <> b' -> shift_block c b v n b' = v n b'.
Proof. intros H. unfold shift_block. rewrite !put_block; auto. Qed.
Lemma shift_level_set_other c b b' v n : b <> b' -> shift_level_set c b v n b' = v n b'.
Proof. intros H. unfold shift_level_set. destruct (init_time_advance _ _ _ _) as [[x y] z]. rewrite !put_block; auto. Qed.
Lemma shift_projection_other c b' v n : 1%nat <> b' -> shift_projection c v n b' = v n b'.
Proof. intros H. unfold shift_projection. destruct (1 <? step_no c)%Z; [|destruct (step_no c =? 1)%Z]; rewrite ?put_block; auto. Qed.
Lemma shift_projection_ext c v v' n : v Sol 1%nat = v' Sol 1%nat -> v Old 1%nat = v' Old 1%nat -> v OldOld 1%nat = v' OldOld 1%nat -> n = Sol \/ n = Old \/ n = OldOld ->
  shift_projection c v n 1%nat = shift_projection c v' n 1%nat.
Proof.
  intros H1 H2 H3 Hn. unfold shift_projection. rewrite H1, H2, H3. destruct (1 <? step_no c)%Z; [|destruct (step_no c =? 1)%Z]; destruct Hn as [-> | [-> | ->]]; putnorm; auto.
Qed.

(** Nothing else is read: what the other vectors contained before the refinement has no influence. *)
Theorem C85_others_not_read : forall e c s1 s2, generation s1 = generation s2 ->
  (forall n, n = Sol \/ n = Old -> forall b, (b < 2)%nat -> ns s1 n b = ns s2 n b /\ tp s1 n b = tp s2 n b) ->
  (projection e = true -> ns s1 OldOld 1%nat = ns s2 OldOld 1%nat) ->
  forall n b, n = Sol \/ n = Old \/ n = OldOld -> (b < 2)%nat ->
    ns (tp_init_time_advance e c (refine_grid e true s1)) n b = ns (tp_init_time_advance e c (refine_grid e true s2)) n b /\
    tp (tp_init_time_advance e c (refine_grid e true s1)) n b = tp (tp_init_time_advance e c (refine_grid e true s2)) n b.
Proof.
  intros e c s1 s2 G H P n b Hn Hb.
  destruct (C85_fields_survive e s1) as (_ & K1). destruct (C85_fields_survive e s2) as (_ & K2). cbv zeta in K1, K2.
  destruct K1 as (_ & _ & _ & _ & _ & F1 & O1). destruct K2 as (_ & _ & _ & _ & _ & F2 & O2).
  set (r1 := refine_grid e true s1) in *. set (r2 := refine_grid e true s2) in *. clearbody r1 r2. rewrite <- G in F2, O2.
  assert (Q : forall m, m = Sol \/ m = Old -> ns r1 m 0%nat = ns r2 m 0%nat /\ ns r1 m 1%nat = ns r2 m 1%nat /\ tp r1 m 0%nat = tp r2 m 0%nat /\ tp r1 m 1%nat = tp r2 m 1%nat).
  { intros m Hm. destruct (F1 m Hm) as (-> & -> & -> & ->). destruct (F2 m Hm) as (-> & -> & -> & ->).
    destruct (H m Hm 0%nat ltac:(lia)) as (-> & ->). destruct (H m Hm 1%nat ltac:(lia)) as (-> & ->). auto. }
  assert (O : projection e = true -> ns r1 OldOld 1%nat = ns r2 OldOld 1%nat) by (intros E; rewrite O1, O2, P; auto). clear F1 F2 O1 O2 H P.
  destruct (Q Sol (or_introl eq_refl)) as (A1 & A2 & A3 & A4). destruct (Q Old (or_intror eq_refl)) as (B1 & B2 & B3 & B4).
  unfold tp_init_time_advance, ns_init_time_advance. cbn [ns tp with_ns with_tp].
  destruct b as [|[|b]]; [| |lia]; split.
  - destruct (projection e); rewrite ?shift_projection_other, ?(shift_block_other c 1%nat 0%nat) by discriminate; apply shift_block_ext; auto.
  - rewrite !(shift_level_set_other c 1%nat 0%nat) by discriminate. apply shift_level_set_ext; auto.
  - destruct (projection e) eqn:PE.
    + apply shift_projection_ext; auto; rewrite !shift_block_other by discriminate; auto.
    + apply shift_block_ext; auto; rewrite !shift_block_other by discriminate; auto.
  - apply shift_level_set_ext; auto; rewrite !shift_level_set_other by discriminate; auto.
Qed.
Print Assumptions C85_others_not_read.

(** Violated parts. (1) The right hand side set by the user is zero after a refinement. (2) The curvature is not made continuous on the new
    mesh: wherever the transferred curvature violates the hanging node constraints, the stored one does. (3) A second call of
    initialize_matrix_free sets the flow field to zero. *)
(** all other vectors of both solvers start from zero on the new mesh (no old content, no old size) *)
Theorem C85_other_vectors_new : forall e s n b, n <> Sol -> n <> Old ->
  tp (refine_grid e true s) n b = zero /\ ((n, b) <> (OldOld, 1%nat) \/ projection e = false -> ns (refine_grid e true s) n b = zero).
Proof.
  intros e s n b H1 H2. unfold refine_grid.
  destruct (prepare_spec e s) as (G1 & T1 & U1 & P1). set (s1 := prepare_coarsening_and_refinement e s) in *. clearbody s1. split.
  - unfold tp_initialize_data_structures. cbn [with_tp tp]. unfold distribute_block_vector, tp_targets. cbn [put_all map get_all app fst snd].
    destruct n; try congruence; reflexivity.
  - intros Hq. cbn [with_tp ns]. unfold tp_initialize_data_structures. cbn [with_tp ns]. unfold initialize_matrix_free, ns_initialize_data_structures.
    cbn [ns_distribute_dofs execute_coarsening_and_refinement system_is_setup sol_trans_u sol_trans_p generation ns tp]. rewrite U1, P1. unfold velocity_targets, pressure_targets.
    cbn [ns]. destruct (projection e) eqn:Pr; cbn [app map put_all]; unfold apply_to; cbn [fold_left fst snd]; unfold put;
      destruct n; try congruence; destruct b as [|[|b]]; cbn; try reflexivity. exfalso. destruct Hq as [Hq|Hq]; congruence.
Qed.
Print Assumptions C85_other_vectors_new.
Theorem C85_violation_user_rhs : forall e s b, ns (refine_grid e true s) UserRhs b = zero.
Proof.
  intros e s b. unfold refine_grid. destruct (prepare_spec e s) as (G1 & T1 & U1 & P1). set (s1 := prepare_coarsening_and_refinement e s) in *. clearbody s1.
  unfold tp_initialize_data_structures, ns_initialize_data_structures. cbn [ns_distribute_dofs system_is_setup with_tp ns].
  match goal with |- ns (initialize_matrix_free e ?x) _ _ = _ => set (s3 := x) end.
  assert (H3 : generation s3 = S (generation s) /\ sol_trans_u s3 = sol_trans_u s1 /\ sol_trans_p s3 = sol_trans_p s1) by (unfold s3; cbn; rewrite G1; auto).
  clearbody s3. destruct H3 as (G3 & U3 & P3).
  destruct (initialize_spec e s3 (hanging_u e (generation s) (ns s Sol 0%nat)) (hanging_u e (generation s) (ns s Old 0%nat))
    (hanging_p e (generation s) (ns s Sol 1%nat)) (hanging_p e (generation s) (ns s Old 1%nat)) (hanging_p e (generation s) (ns s OldOld 1%nat)))
    as (_ & _ & _ & _ & _ & _ & _ & _ & _ & _ & H); [rewrite G3; lia|congruence|congruence|]. apply H.
Qed.
Print Assumptions C85_violation_user_rhs.
Theorem C85_violation_curvature_conformity : forall e s, let g := generation s in
  hanging_l e (S g) (transfer_l e g (tp s Sol 1%nat)) <> transfer_l e g (tp s Sol 1%nat) ->
  hanging_l e (S g) (tp (refine_grid e true s) Sol 1%nat) <> tp (refine_grid e true s) Sol 1%nat.
Proof.
  intros e s g H. destruct (C85_fields_survive e s) as (_ & K). cbv zeta in K. destruct K as (_ & _ & _ & _ & _ & F & _).
  destruct (F Sol (or_introl eq_refl)) as (_ & _ & _ & ->). exact H.
Qed.
Print Assumptions C85_violation_curvature_conformity.
Theorem C85_second_initialization : forall e s n b, sol_trans_u s = None ->
  ns (initialize_matrix_free e s) n b = zero /\ ns (initialize_matrix_free e (refine_grid e true s)) n b = zero.
Proof.
  intros e s n b H. split; [unfold initialize_matrix_free; rewrite H; reflexivity|].
  destruct (C85_fields_survive e s) as (_ & K). cbv zeta in K. destruct K as (_ & _ & _ & K & _). unfold initialize_matrix_free. rewrite K. reflexivity.
Qed.
Print Assumptions C85_second_initialization.

(** ** C86 *)
Fixpoint count_true (l : list bool) : nat := match l with [] => 0%nat | true :: l => S (count_true l) | false :: l => count_true l end.

Lemma adaptation_spec e : linear_env e -> forall marks s,
  (forall b, tp s Old b = zero /\ ns s Old b = zero) -> tp s Sol 1%nat = zero -> ns s Sol 1%nat = zero -> (generation s < 1 + generation s)%nat ->
  let s' := adaptation e marks s in
  generation s' = (generation s + count_true marks)%nat /\
  (forall b, (b < 2)%nat -> tp s' Old b = zero /\ ns s' Old b = zero) /\ tp s' Sol 1%nat = zero /\ ns s' Sol 1%nat = zero /\
  (marks <> [] -> tp s' Sol 0%nat = hanging_l e (generation s') (transform_distance e (generation s') (interpolated_distance e (generation s'))) /\
                  ns s' Sol 0%nat = interpolated_u e (generation s')).
Proof.
  intros L marks s H1 H2 H3 _. cbv zeta.
  assert (H1' : forall b, (b < 2)%nat -> tp s Old b = zero /\ ns s Old b = zero) by auto. clear H1. revert s H1' H2 H3.
  induction marks as [|m marks IH]; intros s H1 H2 H3.
  - cbn [adaptation count_true]. rewrite Nat.add_0_r. repeat split; auto; try contradiction; apply H1; auto.
  - cbn [adaptation].
    assert (K : let r := adaptation_round e m s in generation r = (generation s + if m then 1 else 0)%nat /\
      (forall b, (b < 2)%nat -> tp r Old b = zero /\ ns r Old b = zero) /\ tp r Sol 1%nat = zero /\ ns r Sol 1%nat = zero /\
      tp r Sol 0%nat = hanging_l e (generation r) (transform_distance e (generation r) (interpolated_distance e (generation r))) /\ ns r Sol 0%nat = interpolated_u e (generation r)).
    { cbv zeta. unfold adaptation_round. destruct (C85_fields_survive e s) as (N & K). cbv zeta in K. destruct K as (G & _ & _ & _ & _ & F & _).
      destruct (L (generation s)) as (T1 & T2 & T3 & D1 & D2 & D3). destruct (L (S (generation s))) as (_ & _ & _ & E1 & E2 & E3).
      destruct m.
      - set (r := refine_grid e true s) in *. clearbody r. destruct (F Sol (or_introl eq_refl)) as (_ & S2 & _ & S4). destruct (F Old (or_intror eq_refl)) as (O1 & O2 & O3 & O4).
        destruct (H1 0%nat ltac:(lia)) as [Z1 Z2]. destruct (H1 1%nat ltac:(lia)) as [Z3 Z4]. unfold velocity_on_new_mesh, pressure_on_new_mesh, level_set_on_new_mesh in *.
        rewrite Z2, !linear_zero in O1 by auto. rewrite Z4, !linear_zero in O2 by auto. rewrite Z1, !linear_zero in O3 by auto. rewrite Z3, !linear_zero in O4 by auto.
        rewrite H3, !linear_zero in S2 by auto. rewrite H2, !linear_zero in S4 by auto.
        cbn. rewrite G. split; [lia|]. split; [|split; [|split]]; auto. intros [|[|b]] Hb; [| |lia]; split; auto.
      - rewrite N. cbn. split; [lia|]. split; [|split; [|split]]; auto. }
    cbv zeta in K. destruct K as (G & O & S1 & S2 & S3 & S4). set (r := adaptation_round e m s) in *. clearbody r.
    destruct (IH r O S1 S2) as (G' & O' & S1' & S2' & F). split; [rewrite G', G; destruct m; cbn; lia|]. split; [auto|]. split; [auto|]. split; [auto|].
    intros _. destruct marks; [cbn; auto|]. apply F. discriminate.
Qed.

(** After the setup of a two-phase problem, whatever was refined: the level set is the transformed distance function on the final mesh with
    the interface width of the final mesh (made continuous if the mesh was adapted), the velocity is the initial velocity on the final mesh,
    pressure, curvature and the old time levels are zero; a Stokes problem is solved exactly if the velocity is zero. *)
Theorem C86_setup : forall e velocity_is_zero stokes adaptive mark, linear_env e ->
  let s := two_phase_setup e velocity_is_zero (fun s => s) false adaptive mark constructed in
  let g := generation s in
  two_phase_setup e velocity_is_zero stokes false adaptive mark constructed = (if velocity_is_zero (interpolated_u e g) then stokes s else s) /\
  g = (if Nat.eqb adaptive 0 then 0%nat else count_true (map mark (seq 0 (S adaptive)))) /\
  ns s Sol 0%nat = interpolated_u e g /\
  tp s Sol 0%nat = (if Nat.eqb adaptive 0 then fun x => x else hanging_l e g) (transform_distance e g (interpolated_distance e g)) /\
  ns s Sol 1%nat = zero /\ tp s Sol 1%nat = zero /\
  (forall b, (b < 2)%nat -> ns s Old b = zero /\ tp s Old b = zero).
Proof.
  intros e vz stokes ad mark L. cbv zeta.
  assert (Q : forall st, two_phase_setup e vz st false ad mark constructed =
     (if vz (ns (two_phase_setup e vz (fun s => s) false ad mark constructed) Sol 0%nat) then st (two_phase_setup e vz (fun s => s) false ad mark constructed)
      else two_phase_setup e vz (fun s => s) false ad mark constructed)).
  { intros st. unfold two_phase_setup. cbv zeta. match goal with |- context [vz (ns ?s Sol 0%nat)] => set (x := s) end. destruct (vz (ns x Sol 0%nat)) eqn:E; rewrite ?E; reflexivity. }
  rewrite (Q stokes). clear Q.
  assert (W : exists s0, two_phase_setup e vz (fun s => s) false ad mark constructed = adaptation e (map mark (seq 0 (number_of_rounds ad))) s0 /\
     (forall b, tp s0 Old b = zero /\ ns s0 Old b = zero) /\ tp s0 Sol 1%nat = zero /\ ns s0 Sol 1%nat = zero /\ generation s0 = 0%nat /\
     ns s0 Sol 0%nat = interpolated_u e 0 /\ tp s0 Sol 0%nat = transform_distance e 0 (interpolated_distance e 0)).
  { eexists. split; [unfold two_phase_setup; match goal with |- (if ?c then ?x else ?y) = _ => destruct c end; reflexivity|]. repeat split. }
  destruct W as (s0 & -> & H1 & H2 & H3 & G0 & U0 & P0).
  destruct (adaptation_spec e L (map mark (seq 0 (number_of_rounds ad))) s0 H1 H2 H3 ltac:(lia)) as (G & O & S1 & S2 & F).
  unfold number_of_rounds in *. destruct ad as [|ad].
  - cbn [Nat.ltb Nat.leb Nat.eqb seq map adaptation]. cbn [adaptation seq map Nat.ltb Nat.leb count_true] in *. rewrite U0, G0. repeat split; auto; apply H1.
  - cbn [Nat.ltb Nat.leb Nat.eqb] in *. destruct F as [F1 F2]; [discriminate|]. rewrite G0 in G. cbn [Nat.add] in G. rewrite F2. repeat split; auto; apply O; auto.
Qed.
Print Assumptions C86_setup.

(** Violated: unlike the flow solver alone, the two-phase setup leaves the velocity discontinuous at hanging nodes wherever the interpolant is. *)
Theorem C86_flow_solver_velocity : forall e, ns (ns_setup e false constructed) Sol 0%nat = hanging_u e 0 (interpolated_u e 0).
Proof. reflexivity. Qed.
Print Assumptions C86_flow_solver_velocity.
Theorem C86_violation_velocity_conformity : forall e velocity_is_zero adaptive mark, linear_env e ->
  let s := two_phase_setup e velocity_is_zero (fun s => s) false adaptive mark constructed in
  let g := generation s in
  hanging_u e g (interpolated_u e g) <> interpolated_u e g -> hanging_u e g (ns s Sol 0%nat) <> ns s Sol 0%nat.
Proof. intros e vz ad mark L. cbv zeta. destruct (C86_setup e vz (fun s => s) ad mark L) as (_ & _ & -> & _). auto. Qed.
Print Assumptions C86_violation_velocity_conformity.

(** ** A concrete environment: three nodes on a line, of which node 1 becomes a hanging node in generation 1 (mean of nodes 0 and 2) *)
Definition mid_constraint (g : nat) (x : field) : field := fun i => if Nat.eqb g 1 && Nat.eqb i 1 then 1/2 * x 0%nat + 1/2 * x 2%nat else x i.
Definition ex_env (proj : bool) : env :=
  MkEnv (fun _ x => x) (fun _ x => x) (fun _ x => x) mid_constraint mid_constraint mid_constraint
    (fun _ i => INR i * INR i) (fun _ i => INR i) (fun _ x i => 2 * x i) proj.
Example ex_env_linear proj : linear_env (ex_env proj).
Proof.
  assert (I : linear (fun x => x)) by (intros a b x y; reflexivity).
  assert (M : forall g, linear (mid_constraint g)).
  { intros g a b x y. unfold mid_constraint. extensionality i. destruct (Nat.eqb g 1 && Nat.eqb i 1); [field|auto]. }
  intros g. repeat split; cbn; auto.
Qed.
Example C86_nonvacuous :
  let s := two_phase_setup (ex_env false) (fun _ => false) (fun s => s) false 1 (fun k => Nat.eqb k 0) constructed in
  generation s = 1%nat /\ tp s Sol 0%nat 1%nat = 2 /\ ns s Sol 0%nat 1%nat = 1 /\
  hanging_u (ex_env false) 1 (ns s Sol 0%nat) 1%nat = 2.
Proof.
  cbv zeta. destruct (C86_setup (ex_env false) (fun _ => false) (fun s => s) 1 (fun k => Nat.eqb k 0) (ex_env_linear false)) as (_ & G & U & P & _).
  set (s := two_phase_setup _ _ _ _ _ _ _) in *. clearbody s. cbn in G. rewrite U, P, G. split; [auto|]. unfold mid_constraint. cbn. repeat split; lra.
Qed.
Example C85_nonvacuous_curvature : exists s, hanging_l (ex_env true) (S (generation s)) (transfer_l (ex_env true) (generation s) (tp s Sol 1%nat)) <> transfer_l (ex_env true) (generation s) (tp s Sol 1%nat).
Proof.
  exists (with_tp (put Sol 1%nat (fun i => INR i * INR i) new_vectors) constructed). cbn. unfold mid_constraint. intros H.
  apply (f_equal (fun f => f 1%nat)) in H. cbn in H. lra.
Qed.
