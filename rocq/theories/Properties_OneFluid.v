(** * C119: a domain that is filled with one fluid stays filled with it *)
From Coq Require Import ZArith QArith Reals Lra Lia List Bool.
From Verif Require Import Num Model_TimeStepping Spec_TimeStepping Proofs_TimeStepping Proofs_TimeStepping2
  Model_TwoPhaseClocks Properties_TwoPhaseClocks SumR Model_Bubble Properties_Bubble Model_LevelSetOps Properties_LevelSetOps
  Model_LevelSetRun Properties_LevelSetRun Model_LevelSet Properties_LevelSet2 Model_Force.
From Verif Require Model_PhaseField Properties_PhaseField Model_PhaseFieldRun Properties_PhaseFieldRun.
Import ListNotations.
Local Open Scope R_scope.

(** ** Specification *)
(** every unknown has the value k: with k = 1 only the second fluid is present, with k = -1 only the first *)
Definition filled (s : lspace) (U : lvec) (k : R) : Prop := forall j, (j < l_n s)%nat -> U j = k.
Definition pure (k : R) : Prop := k = 1 \/ k = -1.
(** the advection system of a step has at most one solution, whatever the step size *)
Definition advection_solvable (P : ls_problem) (field : list apoint) (faces : list fpoint) : Prop :=
  forall w x, 0 < w -> (forall i, (i < l_n (lp_space P))%nat -> advance_vmult (lp_space P) (lp_stab P) w field faces x i = 0) ->
  forall i, (i < l_n (lp_space P))%nat -> x i = 0.

(** ** Constants *)
Lemma filled_value s pts U k p : partition_of_unity s pts -> filled s U k -> In p pts -> lvalue s p U = k.
Proof.
  intros [H _] F Hp. unfold lvalue. rewrite (sumn_ext _ _ (fun j => k * l_shape p j)) by (intros j Hj; rewrite F by exact Hj; reflexivity).
  rewrite sumn_scal, H by exact Hp. ring.
Qed.
Lemma filled_gradient s pts U k p d : partition_of_unity s pts -> filled s U k -> In p pts -> (d < l_dim s)%nat -> lgradient s p U d = 0.
Proof.
  intros [_ H] F Hp Hd. unfold lgradient. rewrite (sumn_ext _ _ (fun j => k * l_grad p j d)) by (intros j Hj; rewrite F by exact Hj; reflexivity).
  rewrite sumn_scal, H by assumption. ring.
Qed.
Lemma ldot_zero_l s a b : (forall d, (d < l_dim s)%nat -> a d = 0) -> ldot s a b = 0.
Proof. intros H. apply sumn_zero. intros d Hd. rewrite H by exact Hd. ring. Qed.
Lemma ldot_zero_r s a b : (forall d, (d < l_dim s)%nat -> b d = 0) -> ldot s a b = 0.
Proof. intros H. apply sumn_zero. intros d Hd. rewrite H by exact Hd. ring. Qed.

(** the right hand side of the reinitialization vanishes: the compression flux (1 - phi^2)/2 n is zero for any normals *)
Lemma reinit_rhs_zero s pts eps deg dif n U k : partition_of_unity s pts -> filled s U k -> pure k ->
  forall i, reinit_rhs s pts eps deg dif n U i = 0.
Proof.
  intros PU F K i. unfold reinit_rhs, lintegrate. destruct (l_con s i); [reflexivity|]. unfold ltest. apply suml_zero. intros p Hp.
  rewrite ldot_zero_l; [ring|]. intros d Hd. unfold reinit_rhs_flux.
  rewrite (filled_value s pts U k p PU F Hp), (filled_gradient s pts U k p d PU F Hp Hd).
  rewrite (ldot_zero_r s (n p)) by (intros e He; exact (filled_gradient s pts U k p e PU F Hp He)).
  destruct dif; [ring|]. destruct K as [-> | ->]; lra.
Qed.
Lemma filled_add s U inc k : unconstrained s -> filled s U k -> (forall i, (i < l_n s)%nat -> inc i = 0) -> filled s (ladd U (ldistribute s inc)) k.
Proof. intros Un F Z j Hj. unfold ladd, ldistribute, lmask. rewrite (Un j Hj), (F j Hj), (Z j Hj). ring. Qed.
Lemma reinit_filled P dti U V k : mesh_ok P -> good_space (lp_space P) (lp_points P) -> 0 <= lp_eps P -> 0 < dti -> pure k ->
  reinit_steps P dti U V -> filled (lp_space P) U k -> filled (lp_space P) V k.
Proof.
  intros M G He Hd K R. induction R as [U|U inc dif n V H R IH]; intros F; [exact F|]. apply IH.
  pose proof M as (PU & Un & _). apply filled_add; [exact Un|exact F|].
  pose proof (proj2 (proj2 (C43_reinitialization (lp_space P) (lp_points P) dti (lp_eps P) (lp_degree P) dif n G Hd He))) as D.
  apply D. right. unfold inner. apply sumn_zero. intros i Hi. rewrite H by exact Hi. rewrite (reinit_rhs_zero _ _ _ _ _ _ _ k PU F K). ring.
Qed.
(** so does the right hand side of the advection, for any velocity *)
Lemma advance_rhs_zero s stab w field faces U Uo Uoo k : partition_of_unity s (map a_point field) -> partition_of_unity s (map f_point faces) ->
  filled s U k -> filled s Uo k -> (w_use_old_old w = true -> filled s Uoo k) ->
  w_new w + w_old w + (if w_use_old_old w then w_old_old w else 0) = 0 ->
  forall i, advance_rhs s stab w field faces U Uo Uoo i = 0.
Proof.
  intros PU PF F Fo Foo W i. unfold advance_rhs. destruct (l_con s i); [reflexivity|].
  assert (A : adv_test s stab field (fun a => - (adv_val s (w_new w) a U + old_value s w a Uo Uoo)) (fun a d => - a_visc a * lgradient s (a_point a) U d) i = 0).
  { unfold adv_test. apply suml_zero. intros a Ha. assert (Hp : In (a_point a) (map a_point field)) by (apply in_map; exact Ha).
    assert (GZ : forall d, (d < l_dim s)%nat -> lgradient s (a_point a) U d = 0) by (intros d Hd; exact (filled_gradient s _ U k _ d PU F Hp Hd)).
    assert (E : - (adv_val s (w_new w) a U + old_value s w a Uo Uoo) = 0).
    { unfold adv_val, old_value. rewrite (filled_value s _ U k _ PU F Hp), (filled_value s _ Uo k _ PU Fo Hp), (ldot_zero_l s _ (a_vel a) GZ).
      destruct (w_use_old_old w).
      - rewrite (filled_value s _ Uoo k _ PU (Foo eq_refl) Hp). replace (- (k * w_new w + 0 + (w_old w * k + w_old_old w * k))) with (- k * (w_new w + w_old w + w_old_old w)) by ring. rewrite W. ring.
      - replace (- (k * w_new w + 0 + (w_old w * k + 0))) with (- k * (w_new w + w_old w + 0)) by ring. rewrite W. ring. }
    rewrite E. destruct stab; [|ring]. rewrite ldot_zero_l; [ring|]. intros d Hd. rewrite GZ by exact Hd. ring. }
  rewrite A. destruct stab; [|ring]. unfold face_test. rewrite suml_zero; [ring|]. intros f Hf.
  rewrite ldot_zero_r; [ring|]. intros d Hd. rewrite (filled_gradient s _ U k _ d PF F (in_map f_point _ _ Hf) Hd). ring.
Qed.
Lemma extrapolated_filled s (c : clock RNum) U V k : filled s U k -> (0 < old_step_size c -> filled s V k) -> filled s (extrapolated c U V) k.
Proof.
  intros FU FV j Hj. unfold extrapolated, Rltb. destruct (Rlt_dec 0 (old_step_size c)) as [L|L]; [|exact (FU j Hj)].
  rewrite (FU j Hj), (FV L j Hj). field. lra.
Qed.

(** ** The weights of a step with fixed step size sum to zero *)
Lemma fixed_weights (p : ts_params RNum) sm n : sensible p -> legal_run fixed sm (S n) (setup_clocks p) -> (Z.of_nat (S n) < 4294967296)%Z ->
  at_end (ck_ns (two_phase_loop (N:=RNum) fixed sm (S n) (setup_clocks p))) = false ->
  let w := clock_weights (ck_ns (two_phase_loop (N:=RNum) fixed sm (S n) (setup_clocks p))) in
  ck_adv (two_phase_loop (N:=RNum) fixed sm (S n) (setup_clocks p)) = ck_ns (two_phase_loop (N:=RNum) fixed sm (S n) (setup_clocks p)) /\
  0 < w_new w /\ w_new w + w_old w + (if w_use_old_old w then w_old_old w else 0) = 0 /\ (w_use_old_old w = true -> (0 < n)%nat).
Proof.
  intros Sp L Hn Eb. assert (Hh : 0 < 1 / tp_step_start p) by (destruct Sp as (? & ? & _); apply Rdiv_lt_0_compat; lra).
  destruct (fixed_step_clock p sm (S n) Sp L Hn Eb) as (_ & W1 & W2 & W3).
  destruct (loop_sync p fixed sm (S n) Sp L) as [_ A]. destruct (A Eb) as [EA _]. clear A.
  destruct (loop_facts p fixed sm (S n) Sp L Eb) as (_ & G2 & G3 & _).
  cbv zeta. split; [exact EA|]. unfold clock_weights. cbn [w_new w_old w_old_old w_use_old_old]. unfold weight, weight_old, weight_old_old, ts_scheme, step_no.
  rewrite G2, G3, Z.mod_small by lia. specialize (W2 ltac:(lia)). rewrite W1, W2.
  set (h := 1 / tp_step_start p) in *. clearbody h.
  destruct (scheme_eqb (tp_scheme p) bdf_2 && (1 <? Z.of_nat (S n))%Z) eqn:U.
  - rewrite (W3 eq_refl). split; [lra|]. split; [lra|]. intros _. apply andb_true_iff in U as [_ U]. apply Z.ltb_lt in U. lia.
  - split; [lra|]. split; [lra|]. discriminate.
Qed.
(** the old step size is zero in the first step *)
Lemma first_old_step (p : ts_params RNum) sm n : sensible p -> legal_run fixed sm (S n) (setup_clocks p) ->
  0 < old_step_size (ck_ns (two_phase_loop (N:=RNum) fixed sm (S n) (setup_clocks p))) -> (0 < n)%nat.
Proof.
  intros Sp L H. destruct n as [|n]; [exfalso|lia]. revert H. cbn [two_phase_loop]. unfold two_phase_step. change (fixed 0) with (@None R). cbn [ck_ns request_step].
  rewrite (proj1 (setup_sync p Sp)). unfold old_step_size. cbn [next last_step_val]. unfold next_last.
  assert (N : not_at_start (restart (ts_init (N:=RNum) p)) = false).
  { unfold not_at_start. apply negb_false_iff. rnum. apply Num.Reqb_true. reflexivity. }
  rewrite N. cbn. lra.
Qed.

(** ** C119: the level set solver *)
Theorem C119_level_set : forall (P : ls_problem) (p : ts_params RNum) sm field faces initial a n b k,
  mesh_ok P -> good_space (lp_space P) (lp_points P) -> 0 <= lp_eps P -> sensible p -> (Z.of_nat n < 4294967296)%Z ->
  (forall m, (m < n)%nat -> partition_of_unity (lp_space P) (map f_point (faces m)) /\ advection_solvable P (field m) (faces m)) ->
  pure k -> filled (lp_space P) initial k ->
  ls_setup P p initial a -> ls_run P fixed sm field faces a n b -> at_end (ck_ns (lss_clocks b)) = false ->
  filled (lp_space P) (lss_cur b) k.
Proof.
  intros P p sm field faces initial a n b k M G He Sp Hn Hf K F0 [Ha R0] R Eb.
  enough (Q : filled (lp_space P) (lss_cur b) k /\ ((0 < n)%nat -> filled (lp_space P) (lss_old b) k)) by (destruct Q as [Q _]; exact Q).
  assert (Fa : filled (lp_space P) (lss_cur a) k) by exact (reinit_filled P _ _ _ k M G He (dtau_positive P _ _ M) K R0 F0).
  revert Hn Hf Eb. induction R as [|n b c R IH E T]; intros Hn Hf Eb; [split; [exact Fa|lia]|].
  destruct (IH ltac:(lia) (fun m Hm => Hf m ltac:(lia)) E) as (I1 & I2). clear IH.
  destruct (run_clocks P p fixed sm field faces a n b Ha R) as [C1 C2].
  destruct (Hf n ltac:(lia)) as [F1 F2].
  assert (L : legal_run fixed sm (S n) (setup_clocks p)).
  { intros m Hm. destruct (Nat.eq_dec m n) as [->|Hne]; [rewrite <- C1; exact E|]. apply C2. lia. }
  destruct T as (Tp & Tk & To & _ & inc & first & Ts & R1 & R2). rewrite Tk, C1 in Eb. rewrite C1 in *.
  change (two_phase_step (N:=RNum) (fixed n) (sm n) (two_phase_loop (N:=RNum) fixed sm n (setup_clocks p))) with (two_phase_loop (N:=RNum) fixed sm (S n) (setup_clocks p)) in *.
  destruct (fixed_weights p sm n Sp L Hn Eb) as (WA & W0 & W1 & W2).
  pose proof (first_old_step p sm n Sp L) as Q. rewrite WA in *.
  set (ns := ck_ns (two_phase_loop (N:=RNum) fixed sm (S n) (setup_clocks p))) in *. clearbody ns.
  pose proof M as (PU & Un & _). split; [|intros _; rewrite To; exact I1].
  assert (FG : filled (lp_space P) (extrapolated ns (lss_cur b) (lss_old b)) k) by (apply extrapolated_filled; [exact I1|intros X; exact (I2 (Q X))]).
  assert (Z : forall i, (i < l_n (lp_space P))%nat -> inc i = 0).
  { apply (F2 (w_new (clock_weights ns)) inc W0). intros i Hi. rewrite (Ts i Hi).
    apply (advance_rhs_zero _ _ _ _ _ _ _ _ k); [rewrite Tp; exact PU|exact F1|exact FG|exact I1|intros X; exact (I2 (W2 X))|exact W1]. }
  pose proof (filled_add _ _ _ k Un FG Z) as FA.
  pose proof (reinit_filled P _ _ _ k M G He (dtau_positive P _ _ M) K R1 FA) as FF.
  destruct (sm n); [exact (reinit_filled P _ _ _ k M G He (dtau_positive P _ _ M) K R2 FF)|]. rewrite R2. exact FF.
Qed.
Print Assumptions C119_level_set.

(** the normals of such a field vanish (normal projection, any damping) *)
Theorem C119_normals : forall s pts scale mind deg U k normal component, good_space s pts -> 0 <= scale -> partition_of_unity s pts -> filled s U k ->
  (component < l_dim s)%nat -> (forall i, (i < l_n s)%nat -> normal_vmult s pts scale mind deg normal i = normal_rhs s pts U component i) ->
  forall i, (i < l_n s)%nat -> normal i = 0.
Proof.
  intros s pts scale mind deg U k normal cm G Hs PU F Hc H.
  apply (proj2 (proj2 (C43_normal s pts scale mind deg G Hs))). right. unfold inner. apply sumn_zero. intros i Hi. rewrite H by exact Hi.
  unfold normal_rhs, lintegrate. destruct (l_con s i); [ring|]. unfold ltest. rewrite suml_zero; [ring|]. intros p Hp.
  rewrite (filled_gradient s pts U k p cm PU F Hp Hc). rewrite ldot_zero_l by reflexivity. ring.
Qed.
Print Assumptions C119_normals.

(** ** Densities and forces *)
(** the nodal indicator field of such a level set is 0 or 1 at every node of every cell, whatever the vector held before *)
Lemma set_all (f : nat -> R) (v : R) dofs : forall h : nat -> R, (forall i, In i dofs -> f i = v) ->
  let r := fold_left (fun h i => set_node h i (f i)) dofs h in
  (forall i, In i dofs -> r i = v) /\ (forall i, h i = v -> r i = v).
Proof.
  induction dofs as [|d dofs IH]; intros h Hf; cbn [fold_left]; [split; [intros i []|intros i H; exact H]|].
  destruct (IH (set_node h d (f d)) (fun i Hi => Hf i (or_intror Hi))) as [A B].
  assert (D : set_node h d (f d) d = v) by (unfold set_node; rewrite Nat.eqb_refl; apply Hf; left; reflexivity).
  split.
  - intros i [<-|Hi]; [exact (B _ D)|exact (A i Hi)].
  - intros i Hi. apply B. unfold set_node. destruct (Nat.eqb_spec i d) as [->|_]; [apply Hf; left; reflexivity|exact Hi].
Qed.
Theorem C119_indicator : forall scale k c cells h, pure k -> (forall d i, In d cells -> In i d -> c i = k) ->
  forall d i, In d cells -> In i d -> compute_heaviside scale c cells h i = (1 + k) / 2.
Proof.
  intros scale k c cells h K. pose proof tanh2_range as TR. revert h.
  assert (CC : forall d, (forall i, In i d -> c i = k) -> consider_cell c d = false).
  { intros d Hd. unfold consider_cell. destruct (existsb _ d) eqn:X; [|reflexivity]. exfalso. apply existsb_exists in X as (i & Hi & X).
    rewrite (Hd i Hi) in X. revert X. unfold Rltb. destruct (Rlt_dec (Rabs k) cutoff) as [Y|Y]; [|discriminate]. intros _.
    destruct K as [-> | ->]; [rewrite Rabs_R1 in Y; lra|rewrite Rabs_left in Y; lra]. }
  assert (CV : forall h d, (forall i, In i d -> c i = k) -> (forall i, In i d -> heaviside_cell scale c h d i = (1 + k) / 2) /\
                           (forall i, h i = (1 + k) / 2 -> heaviside_cell scale c h d i = (1 + k) / 2)).
  { intros h d Hd. unfold heaviside_cell. rewrite (CC d Hd). destruct d as [|d0 d]; [split; [intros i []|intros i H; exact H]|].
    rewrite (Hd d0 (or_introl eq_refl)). destruct K as [-> | ->].
    - rewrite Rltb_false by lra. apply (set_all (fun _ => 1) ((1 + 1) / 2)). intros; lra.
    - rewrite Rltb_true by lra. apply (set_all (fun _ => 0) ((1 + -1) / 2)). intros; lra. }
  assert (KEEP : forall cells h, (forall d i, In d cells -> In i d -> c i = k) -> forall i, h i = (1 + k) / 2 -> compute_heaviside scale c cells h i = (1 + k) / 2).
  { clear cells. induction cells as [|d cells IH]; intros h H i Hi; [exact Hi|]. unfold compute_heaviside. cbn [fold_left].
    apply (IH (heaviside_cell scale c h d) (fun d' i' X => H d' i' (or_intror X)) i).
    apply (proj2 (CV h d (fun i' => H d i' (or_introl eq_refl)))). exact Hi. }
  induction cells as [|d cells IH]; [intros h H d' i []|intros h H d' i [<-|Hd] Hi].
  - unfold compute_heaviside. cbn [fold_left]. apply (KEEP cells (heaviside_cell scale c h d) (fun d' i' X => H d' i' (or_intror X))).
    apply (proj1 (CV h d (fun i' => H d i' (or_introl eq_refl)))). exact Hi.
  - unfold compute_heaviside. cbn [fold_left]. exact (IH (heaviside_cell scale c h d) (fun d' i' X => H d' i' (or_intror X)) d' i Hd Hi).
Qed.
Print Assumptions C119_indicator.

(** the shape functions of the cell sum to one, those of the pressure too, and the interpolation onto the pressure reproduces constants *)
Definition cell_consistent (dim : nat) (c : force_cell) : Prop :=
  (forall q, (q < fc_nq c)%nat -> sumn (fc_nls c) (fc_lshape c q) = 1) /\
  (forall q d, (q < fc_nq c)%nat -> (d < dim)%nat -> sumn (fc_nls c) (fun j => fc_lgrad c q j d) = 0) /\
  (forall q d, (q < fc_nq c)%nat -> (d < dim)%nat -> sumn (fc_np c) (fun i => fc_pgrad c q i d) = 0) /\
  (forall i, (i < fc_np c)%nat -> sumn (fc_nls c) (fc_interp c i) = 1).
(** then density and viscosity are those of the one fluid at every quadrature point, and the only body force is gravity: there is no
    surface tension whatever the curvature field holds *)
Theorem C119_force : forall p c H, cell_consistent (fp_dim p) c -> (forall j, (j < fc_nls c)%nat -> fc_ls c j = H) ->
  forall q, (q < fc_nq c)%nat ->
  okz_density p c q = fp_density p + fp_density_diff p * H /\
  okz_property (fp_viscosity p) (fp_viscosity_diff p) (fc_nls c) (fc_ls c) (fc_lshape c q) = fp_viscosity p + fp_viscosity_diff p * H /\
  forall d, (d < fp_dim p)%nat ->
    okz_force p c q d = if Nat.eqb d (fp_dim p - 1) then - (fp_gravity p * (fp_density p + fp_density_diff p * H)) else 0.
Proof.
  intros p c H (S1 & S2 & S3 & S4) F q Hq.
  assert (V : fe_value (fc_nls c) (fc_ls c) (fc_lshape c q) = H).
  { unfold fe_value. rewrite (sumn_ext _ _ (fun j => H * fc_lshape c q j)) by (intros j Hj; rewrite F by exact Hj; reflexivity).
    rewrite sumn_scal, (S1 q Hq). ring. }
  assert (D : okz_density p c q = fp_density p + fp_density_diff p * H) by (unfold okz_density, okz_property, mixture; rewrite V; reflexivity).
  split; [exact D|]. split; [unfold okz_property, mixture; rewrite V; reflexivity|]. intros d Hd. unfold okz_force.
  assert (G1 : ls_gradient c q d = 0).
  { unfold ls_gradient. rewrite (sumn_ext _ _ (fun j => H * fc_lgrad c q j d)) by (intros j Hj; rewrite F by exact Hj; reflexivity).
    rewrite sumn_scal, (S2 q d Hq Hd). ring. }
  assert (G2 : pressure_gradient c (projected_value c) q d = 0).
  { unfold pressure_gradient. rewrite (sumn_ext _ _ (fun i => H * fc_pgrad c q i d)).
    - rewrite sumn_scal, (S3 q d Hq Hd). ring.
    - intros i Hi. unfold projected_value. rewrite (sumn_ext _ _ (fun j => H * fc_interp c i j)) by (intros j Hj; rewrite F by exact Hj; ring).
      rewrite sumn_scal, (S4 i Hi). ring. }
  rewrite G1, G2. assert (A : actual_rho p (okz_density p c q) = fp_density p + fp_density_diff p * H).
  { unfold actual_rho, use_variable_parameters. rewrite D. unfold Reqb.
    destruct (Req_EM_T (fp_density_diff p) 0) as [E|E]; [|reflexivity]. destruct (Req_EM_T (fp_viscosity_diff p) 0); [cbn [negb orb]|reflexivity].
    rewrite E. ring. }
  rewrite A. destruct (fp_interpolate p), (Nat.eqb d (fp_dim p - 1)); ring.
Qed.
Print Assumptions C119_force.

(** ** C119: the phase field solver *)
Section PhaseField.
Import Model_PhaseField Properties_PhaseField Model_PhaseFieldRun Properties_PhaseFieldRun.
(** phase field everywhere k, chemical potential everywhere 0 *)
Definition b_filled (s : lspace) (U : block2) (k : R) : Prop := filled s (b_c U) k /\ filled s (b_w U) 0.
(** the linear solver answers a vanishing right hand side with a vanishing update *)
Definition zero_to_zero (s : lspace) (solver : nat -> stored -> block2 -> block2) : Prop :=
  forall i st rhs, b_filled s rhs 0 -> b_filled s (solver i st rhs) 0.
(** the columns of the face matrices sum to one as the shape functions do *)
Definition faces_consistent (s : lspace) (faces : list cface) : Prop := forall f, In f faces -> sumn (l_n s) (cf_matrix f) = 1.
Lemma b_extrapolated_filled s (c : clock RNum) U V k : b_filled s U k -> (0 < old_step_size c -> b_filled s V k) -> b_filled s (b_extrapolated c U V) k.
Proof.
  intros [U1 U2] H. split; unfold b_extrapolated; cbn [b_c b_w]; apply extrapolated_filled; try assumption; intros L; destruct (H L) as [A B]; assumption.
Qed.
Lemma pf_residual_zero s par w pts faces co coo U k : partition_of_unity s (map c_pt pts) -> unconstrained s -> faces_consistent s faces -> pure k ->
  b_filled s U k -> filled s co k -> (w_use_old_old w = true -> filled s coo k) -> w_new w <> 0 ->
  w_new w + w_old w + (if w_use_old_old w then w_old_old w else 0) = 0 ->
  b_filled s (fst (ch_residual s par w pts faces co coo U)) 0.
Proof.
  intros PU Un PF K [FC FW] Fo Foo W0 W.
  assert (K2 : k * k - 1 = 0) by (destruct K as [-> | ->]; ring).
  split; unfold ch_residual; cbn [fst b_c b_w]; intros i Hi; rewrite (Un i Hi).
  - unfold ctest. apply suml_zero. intros q Hq. assert (Hp : In (c_pt q) (map c_pt pts)) by (apply in_map; exact Hq).
    rewrite ldot_zero_l.
    2: { intros d Hd. unfold res0_flux. rewrite (filled_gradient s _ (b_w U) 0 _ d PU FW Hp Hd). ring. }
    unfold res0_val. rewrite (filled_value s _ _ k _ PU FC Hp), (filled_value s _ _ k _ PU Fo Hp).
    rewrite (ldot_zero_l s _ (c_vel q)) by (intros d Hd; exact (filled_gradient s _ (b_c U) k _ d PU FC Hp Hd)).
    unfold inv_time_weight.
    assert (E : k + w_old w * (1 / w_new w) * k + (if w_use_old_old w then w_old_old w * (1 / w_new w) * lvalue s (c_pt q) coo else 0) + 0 * (1 / w_new w)
                = k / w_new w * (w_new w + w_old w + (if w_use_old_old w then w_old_old w else 0))).
    { destruct (w_use_old_old w); [rewrite (filled_value s _ _ k _ PU (Foo eq_refl) Hp)|]; field; exact W0. }
    rewrite E, W. ring.
  - unfold ctest. rewrite suml_zero.
    + unfold contact_test. destruct (Model_PhaseField.Reqb (ch_contact par) 0); [ring|]. rewrite suml_zero; [ring|]. intros f Hf. unfold contact_res.
      assert (V : face_value s f (b_c U) = k).
      { unfold face_value. rewrite (sumn_ext _ _ (fun j => k * cf_matrix f j)) by (intros j Hj; unfold lmask; rewrite (Un j Hj), (FC j Hj); reflexivity).
        rewrite sumn_scal, (PF f Hf). ring. }
      rewrite V, K2. ring.
    + intros q Hq. assert (Hp : In (c_pt q) (map c_pt pts)) by (apply in_map; exact Hq).
      rewrite ldot_zero_l.
      2: { intros d Hd. unfold res1_flux. rewrite (filled_gradient s _ (b_c U) k _ d PU FC Hp Hd). ring. }
      unfold res1_val. rewrite (filled_value s _ _ k _ PU FC Hp), (filled_value s _ _ 0 _ PU FW Hp), K2. ring.
Qed.
Lemma newton_filled s residual norm solver tol k :
  (forall U, b_filled s U k -> b_filled s (fst (residual U)) 0) -> zero_to_zero s solver ->
  forall fuel i U log, b_filled s U k -> b_filled s (fst (newton_loop residual norm (b_distribute s) solver tol fuel i U log)) k.
Proof.
  intros HR HS. induction fuel as [|fuel IH]; intros i U log F; cbn [newton_loop]; [exact F|].
  pose proof (HR U F) as R0. destruct (residual U) as [rhs st]. cbn [fst] in R0.
  destruct (negb (Nat.eqb i 0) && _); [exact F|]. apply IH. destruct (HS i st rhs R0) as [S1 S2]. destruct F as [F1 F2].
  split; intros j Hj; cbn [b_sub b_distribute b_c b_w]; unfold ldistribute, lmask; rewrite ?(F1 j Hj), ?(F2 j Hj), ?(S1 j Hj), ?(S2 j Hj); destruct (l_con s j); ring.
Qed.
(** for every velocity, contact angle, number of Newton steps, mobility and surface tension *)
Theorem C119_phase_field : forall (P : pf_problem) (p : ts_params RNum) points pts solver initial a n b k,
  pf_mesh P points pts n -> faces_consistent (pp_space P) (pp_faces P) -> sensible p -> (Z.of_nat n < 4294967296)%Z ->
  (forall m, (m < n)%nat -> zero_to_zero (pp_space P) (solver m)) ->
  pure k -> b_filled (pp_space P) initial k ->
  pf_setup p initial a -> pf_run P fixed pts solver a n b -> at_end (pfs_clock b) = false ->
  b_filled (pp_space P) (pfs_cur b) k.
Proof.
  intros P p points pts solver initial a n b k M FC Sp Hn Hs K F0 [Ha Ia] R Eb.
  enough (Q : b_filled (pp_space P) (pfs_cur b) k /\ ((0 < n)%nat -> b_filled (pp_space P) (pfs_old b) k)) by (destruct Q as [Q _]; exact Q).
  revert Hn M Hs Eb. induction R as [|n b c R IH E T]; intros Hn M Hs Eb; [split; [rewrite Ia; exact F0|lia]|].
  destruct M as (PU & Un & Mp).
  assert (M' : pf_mesh P points pts n) by (split; [exact PU|split; [exact Un|intros m Hm; apply Mp; lia]]).
  destruct (IH ltac:(lia) M' (fun m Hm => Hs m ltac:(lia)) E) as (I1 & I2). clear IH M'.
  destruct (pf_run_clock P p fixed pts solver a n b Ha R) as [C1 C2].
  assert (L : legal_run fixed (fun _ => false) (S n) (setup_clocks p)).
  { intros m Hm. destruct (Nat.eq_dec m n) as [->|Hne]; [rewrite <- C1; exact E|]. apply C2. lia. }
  unfold pf_time_step in T. set (ns := next (N:=RNum) (request_step (N:=RNum) (pfs_clock b) (fixed n))) in *.
  assert (EN : ns = ck_ns (two_phase_loop (N:=RNum) fixed (fun _ => false) (S n) (setup_clocks p))) by (unfold ns; rewrite C1; reflexivity).
  clearbody ns. unfold advance_cahn_hilliard in T. destruct (pp_newton P); [|discriminate T].
  set (res := pf_residual P (pts n) ns (pfs_cur b) (pfs_old b)) in *.
  destruct (newton_loop res (b_norm (pp_space P)) (b_distribute (pp_space P)) (solver n) (pp_tol P) (pp_max P) 0 (b_extrapolated ns (pfs_cur b) (pfs_old b)) (MkNL [] 0 false)) as [U log] eqn:NL.
  injection T as <-. cbn [pfs_cur pfs_old pfs_clock] in *. rewrite EN in Eb.
  destruct (fixed_weights p (fun _ => false) n Sp L Hn Eb) as (_ & W0 & W1 & W2).
  pose proof (first_old_step p (fun _ => false) n Sp L) as Q. rewrite <- EN in *. split; [|intros _; exact I1].
  replace U with (fst (newton_loop res (b_norm (pp_space P)) (b_distribute (pp_space P)) (solver n) (pp_tol P) (pp_max P) 0 (b_extrapolated ns (pfs_cur b) (pfs_old b)) (MkNL [] 0 false))) by (rewrite NL; reflexivity).
  apply newton_filled.
  - intros V FV. unfold res, pf_residual. apply (pf_residual_zero _ _ _ _ _ _ _ _ k).
    + rewrite (Mp n ltac:(lia)). exact PU.
    + exact Un.
    + exact FC.
    + exact K.
    + exact FV.
    + apply I1.
    + intros X. apply I2, W2, X.
    + apply Rgt_not_eq. exact W0.
    + exact W1.
  - apply Hs. lia.
  - apply b_extrapolated_filled; [exact I1|intros X; exact (I2 (Q X))].
Qed.
(** and the density is that of the one fluid *)
Theorem C119_phase_field_density : forall s pts density density_diff c k q, partition_of_unity s pts -> unconstrained s -> pure k -> filled s c k -> In q pts ->
  Model_PhaseField.pf_density s density density_diff q c = density + density_diff * ((1 + k) / 2).
Proof.
  intros s pts density dd c k q PU Un K F Hq. unfold Model_PhaseField.pf_density.
  assert (V : lvalue s q (lmask s c) = k).
  { apply (filled_value s pts _ k q PU); [|exact Hq]. intros j Hj. unfold lmask. rewrite (Un j Hj). exact (F j Hj). }
  rewrite V. destruct K as [-> | ->].
  - rewrite Rmax_right by lra. rewrite Rmin_left by lra. f_equal. f_equal. lra.
  - rewrite Rmax_left by lra. rewrite Rmin_right by lra. f_equal. f_equal. lra.
Qed.
End PhaseField.
Print Assumptions C119_phase_field.
Print Assumptions C119_phase_field_density.

(** ** The matrix-based level set solver *)
(** without convection stabilization a constant level set stays when the velocity is solenoidal as seen by the level set functions *)
Theorem C119_matrix_based_partial : forall s w tau field guess c_old c_old_old increment k,
  partition_of_unity s (map a_point field) -> unconstrained s -> solenoidal s field ->
  filled s guess k -> filled s c_old k -> (w_use_old_old w = true -> filled s c_old_old k) ->
  w_new w + w_old w + (if w_use_old_old w then w_old_old w else 0) = 0 ->
  (forall x, (forall i, (i < l_n s)%nat -> m_vmult s false w tau field x i = 0) -> forall i, (i < l_n s)%nat -> x i = 0) ->
  (forall i, (i < l_n s)%nat -> m_vmult s false w tau field increment i = m_rhs s false w tau field guess c_old c_old_old i) ->
  filled s (advance_result s guess increment) k.
Proof.
  intros s w tau field guess co coo inc k PU Un So F Fo Foo W HU HS. apply filled_add; [exact Un|exact F|].
  apply HU. intros i Hi. rewrite (HS i Hi). unfold m_rhs. rewrite (Un i Hi).
  transitivity (suml field (fun a => k * (l_JxW (a_point a) * sumn (l_dim s) (fun d => a_vel a d * l_grad (a_point a) i d)))).
  - apply suml_ext. intros a Ha. assert (Hp : In (a_point a) (map a_point field)) by (apply in_map; exact Ha).
    unfold m_rhs_point. cbv zeta. fold (ldot s (a_vel a) (l_grad (a_point a) i)).
    rewrite (filled_value s _ guess k _ PU F Hp).
    assert (E : m_old_value s w a co coo - w_new w * k = 0).
    { unfold m_old_value. rewrite (filled_value s _ co k _ PU Fo Hp). destruct (w_use_old_old w).
      - rewrite (filled_value s _ coo k _ PU (Foo eq_refl) Hp). replace (- w_old w * k - w_old_old w * k - w_new w * k) with (- k * (w_new w + w_old w + w_old_old w)) by ring. rewrite W. ring.
      - replace (- w_old w * k - 0 - w_new w * k) with (- k * (w_new w + w_old w + 0)) by ring. rewrite W. ring. }
    rewrite E. ring.
  - rewrite suml_scal, (So i Hi). ring.
Qed.
Print Assumptions C119_matrix_based_partial.
(** Violation 1: at an outlet the boundary term of the integration by parts is missing.  One cell [0,1], velocity 1, level set prescribed
    at the inlet x = 0 (fluid_type), free at the outlet, one fluid with level set 1 everywhere: after one Euler step of size 1 the outlet
    has the level set -13/3, the other fluid.  The matrix-free solver keeps the value 1. *)
Definition inlet_space : lspace := MkLS 1 2 (fun i => Nat.eqb i 0) (fun _ => 1).
Definition uniform_flow : list apoint := [MkAP (ex_pt (1/4)) (fun _ => 1) (1/16); MkAP (ex_pt (3/4)) (fun _ => 1) (1/16)].
Definition euler_weights : weights := MkW 1 (-1) 0 false.
Theorem C119_violation_outlet : exists increment,
  partition_of_unity inlet_space (map a_point uniform_flow) /\
  (forall i, (i < 2)%nat -> m_vmult inlet_space false euler_weights (fun _ => 0) uniform_flow increment i =
                            m_rhs inlet_space false euler_weights (fun _ => 0) uniform_flow (fun _ => 1) (fun _ => 1) (fun _ => 1) i) /\
  advance_result inlet_space (fun _ => 1) increment 0%nat = 1 /\
  advance_result inlet_space (fun _ => 1) increment 1%nat = - 13 / 3 /\
  (forall x i, (i < 2)%nat -> (forall j, (j < 2)%nat -> advance_vmult inlet_space false 1 uniform_flow [] x j =
                            advance_rhs inlet_space false euler_weights uniform_flow [] (fun _ => 1) (fun _ => 1) (fun _ => 1) j) ->
               advance_result inlet_space (fun _ => 1) x i = 1).
Proof.
  exists (fun i => match i with O => 0 | _ => - 16 / 3 end). refine (conj _ (conj _ (conj _ (conj _ _)))).
  - split; [intros p [<-|[<-|[]]]; cbn; lra|intros p d [<-|[<-|[]]] _; cbn; lra].
  - intros i Hi. destruct i as [|[|i]]; [cbn; lra|cbn; unfold m_old_value; cbn; lra|lia].
  - unfold advance_result, ladd, ldistribute, lmask. cbn. lra.
  - unfold advance_result, ladd, ldistribute, lmask. cbn. lra.
  - intros x i Hi H. pose proof (H 1%nat ltac:(lia)) as H1. pose proof (H 0%nat ltac:(lia)) as H0. unfold advance_vmult, advance_rhs, adv_test, adv_val, old_value, set_constrained, lmask in H0, H1. cbn in H0, H1.
    unfold advance_result, ladd, ldistribute, lmask. destruct i as [|[|i]]; [| |lia]; cbn; lra.
Qed.
Print Assumptions C119_violation_outlet.
(** Violation 2: with convection stabilization the system is solved for the new values, but its solution is added to the old ones: with the
    fluid at rest (any mesh, any stabilization parameter, any step size) the level set k becomes 2 k *)
Theorem C119_violation_stabilized : forall s w tau pts k increment, let field := map (fun p => MkAP p (fun _ => 0) 0) pts in
  partition_of_unity s pts -> unconstrained s -> w_new w + w_old w + (if w_use_old_old w then w_old_old w else 0) = 0 ->
  (forall x, (forall i, (i < l_n s)%nat -> m_vmult s true w tau field x i = 0) -> forall i, (i < l_n s)%nat -> x i = 0) ->
  (forall i, (i < l_n s)%nat -> m_vmult s true w tau field increment i = m_rhs s true w tau field (fun _ => k) (fun _ => k) (fun _ => k) i) ->
  filled s (advance_result s (fun _ => k) increment) (2 * k).
Proof.
  intros s w tau pts k inc field PU Un W HU HS.
  assert (EP : map a_point field = pts) by (unfold field; rewrite map_map; cbn [a_point]; apply map_id).
  assert (FK : filled s (fun _ => k) k) by (intros j _; reflexivity).
  assert (UN : forall i, (i < l_n s)%nat -> inc i = k).
  { assert (Z : forall i, (i < l_n s)%nat -> (fun j => inc j - k) i = 0).
    2: { intros i Hi. specialize (Z i Hi). cbv beta in Z. lra. }
    apply HU. intros i Hi. pose proof (HS i Hi) as H. unfold m_vmult, m_rhs, set_constrained in *. rewrite (Un i Hi) in *.
    transitivity (suml field (fun a => sumn (l_n s) (fun j => m_entry s true w tau a i j * lmask s inc j)) - suml field (fun a => m_rhs_point s true w tau a (fun _ => k) (fun _ => k) (fun _ => k) i)); [|lra].
    rewrite <- suml_minus. apply suml_ext. intros a Ha.
    assert (Hp : In (a_point a) pts) by (rewrite <- EP; apply in_map; exact Ha).
    assert (AV : forall b, ldot s (a_vel a) b = 0).
    { intros b. apply ldot_zero_l. intros d _. unfold field in Ha. apply in_map_iff in Ha as (q & <- & _). reflexivity. }
    rewrite (sumn_ext (l_n s) _ (fun j => m_entry s true w tau a i j * lmask s inc j - l_JxW (a_point a) * l_shape (a_point a) i * w_new w * k * l_shape (a_point a) j)).
    2: { intros j Hj. unfold lmask. rewrite (Un j Hj). unfold m_entry. cbv zeta. rewrite !AV. ring. }
    rewrite sumn_minus. f_equal. rewrite sumn_scal, (proj1 PU _ Hp). unfold m_rhs_point. cbv zeta. rewrite AV. unfold m_old_value.
    rewrite (filled_value s pts (fun _ => k) k _ PU FK Hp). destruct (w_use_old_old w).
    - replace (- w_old w * k - w_old_old w * k) with (w_new w * k) by (replace (w_new w) with (- w_old w - w_old_old w) by lra; ring). ring.
    - replace (- w_old w * k - 0) with (w_new w * k) by (replace (w_new w) with (- w_old w) by lra; ring). ring. }
  intros j Hj. unfold advance_result, ladd, ldistribute, lmask. rewrite (Un j Hj), (UN j Hj). ring.
Qed.
Print Assumptions C119_violation_stabilized.

(** ** Concrete runs that meet the hypotheses *)
(** the matrix-free solver, uniform flow through the cell [0,1], with stabilization and boundary faces: two steps, each followed by a
    reinitialization step with compression along the normal 7 *)
Definition of_P : ls_problem := MkLsp ex_space (map a_point uniform_flow) 1 1 (1/2) 1 true.
Lemma of_solvable : advection_solvable of_P uniform_flow ex_faces.
Proof.
  intros w x Hw H. pose proof (H 0%nat ltac:(cbn; lia)) as H0. pose proof (H 1%nat ltac:(cbn; lia)) as H1. cbn in H0, H1. unfold adv_val, lvalue, lgradient, lmask in H0, H1. cbn in H0, H1.
  assert (D : x 0%nat = 0 /\ x 1%nat = 0).
  { set (a := x 0%nat) in *. set (b := x 1%nat) in *. clearbody a b. clear H.
    assert (S : w * (a + b) = 2 * (a - b) * (15/16)) by lra.
    assert (R : (a - b) * (w / 8 + 1 / 16) = 0) by lra.
    assert (X : a - b = 0) by (apply Rmult_integral in R as [R|R]; lra).
    assert (Y : w * (a + b) = 0) by (rewrite S; lra).
    assert (a + b = 0) by (apply Rmult_integral in Y as [Y|Y]; lra). lra. }
  destruct D as [A B]. intros [|[|i]] Hi; [exact A|exact B|cbn in Hi; lia].
Qed.

Lemma of_mesh : mesh_ok of_P.
Proof.
  split; [|split; [intros i _; reflexivity|cbn; split; [lia|split; lra]]].
  split; [intros p [<-|[<-|[]]]; cbn; lra|intros p d [<-|[<-|[]]] _; cbn; lra].
Qed.
Lemma of_good : good_space (lp_space of_P) (lp_points of_P).
Proof.
  split; [|split].
  - intros p [<-|[<-|[]]]; cbn; lra.
  - intros i _ H. discriminate H.
  - intros U H i Hi. pose proof (H _ (or_introl eq_refl)) as H0. pose proof (H _ (or_intror (or_introl eq_refl))) as H1. cbn in H0, H1.
    destruct i as [|[|i]]; [lra|lra|cbn in Hi; lia].
Qed.
Lemma of_faces : partition_of_unity (lp_space of_P) (map f_point ex_faces).
Proof. split; [intros p [<-|[]]; cbn; lra|intros p d [<-|[]] _; cbn; lra]. Qed.
Definition one : lvec := fun _ => 1.
Example C119_nonvacuous : exists a b, filled (lp_space of_P) one 1 /\ ls_setup of_P ex_params one a /\
  (forall m, (m < 2)%nat -> partition_of_unity (lp_space of_P) (map f_point ex_faces) /\ advection_solvable of_P uniform_flow ex_faces) /\
  ls_run of_P fixed (fun _ => false) (fun _ => uniform_flow) (fun _ => ex_faces) a 2 b /\ at_end (ck_ns (lss_clocks b)) = false.
Proof.
  set (a := MkLss (setup_clocks (N:=RNum) ex_params) one one one).
  set (k1 := two_phase_loop (N:=RNum) fixed (fun _ => false) 1 (setup_clocks ex_params)).
  set (k2 := two_phase_loop (N:=RNum) fixed (fun _ => false) 2 (setup_clocks ex_params)).
  assert (F1 : filled ex_space one 1) by (intros j _; reflexivity).
  assert (A0 : at_end (ck_ns (setup_clocks (N:=RNum) ex_params)) = false) by exact (proj1 (ex_clock 0 ltac:(lia))).
  assert (A1 : at_end (ck_ns k1) = false) by exact (proj1 (ex_clock 1 ltac:(lia))).
  assert (A2 : at_end (ck_ns k2) = false) by exact (proj1 (ex_clock 2 ltac:(lia))).
  pose proof of_mesh as (PU & _).
  set (u1 := advance_result ex_space (extrapolated (ck_ns k1) one one) (fun _ => 0)).
  set (v1 := ladd u1 (ldistribute ex_space (fun _ => 0))).
  set (u2 := advance_result ex_space (extrapolated (ck_ns k2) v1 one) (fun _ => 0)).
  assert (FA : forall U, filled ex_space U 1 -> filled ex_space (ladd U (ldistribute ex_space (fun _ => 0))) 1).
  { intros U FU. apply filled_add; [intros i _; reflexivity|exact FU|reflexivity]. }
  assert (G1 : filled ex_space (extrapolated (ck_ns k1) one one) 1) by (apply extrapolated_filled; [exact F1|intros _; exact F1]).
  assert (FU1 : filled ex_space u1 1) by (apply FA; exact G1).
  assert (FV1 : filled ex_space v1 1) by (apply FA; exact FU1).
  assert (G2 : filled ex_space (extrapolated (ck_ns k2) v1 one) 1) by (apply extrapolated_filled; [exact FV1|intros _; exact F1]).
  assert (Z : forall i w stab, advance_vmult ex_space stab w uniform_flow ex_faces (fun _ => 0) i = 0).
  { intros i w stab. unfold advance_vmult, set_constrained. change (l_con ex_space i) with false. cbv iota.
    unfold adv_test, face_test, adv_val, ldot, lvalue, lgradient, lmask. destruct stab; cbn; ring. }
  exists a, (MkLss k2 u2 v1 one). split; [exact F1|]. split; [split; [reflexivity|apply rs_done]|]. split; [intros; split; [exact of_faces|exact of_solvable]|].
  split; [|exact A2].
  apply (lr_step _ _ _ _ _ _ 1 (MkLss k1 v1 one one)); [apply (lr_step _ _ _ _ _ _ 0 a); [apply lr_start|exact A0|]|exact A1|].
  - refine (conj eq_refl (conj eq_refl (conj eq_refl (conj eq_refl _)))). exists (fun _ => 0), v1. split; [|split; [|reflexivity]].
    + intros i Hi. etransitivity; [apply Z|]. symmetry. destruct (ex_weights 1 ltac:(lia)) as (W1 & W2 & W3 & _). fold k1 in W1, W2, W3.
      apply (advance_rhs_zero _ _ _ _ _ _ _ _ 1); [exact PU|exact of_faces|exact G1|exact F1|intros _; exact F1|].
      change (w_new (clock_weights (ck_adv k1)) + w_old (clock_weights (ck_adv k1)) + (if w_use_old_old (clock_weights (ck_adv k1)) then w_old_old (clock_weights (ck_adv k1)) else 0) = 0).
      rewrite W1, W2, W3. cbn. lra.
    + apply (rs_step _ _ _ (fun _ => 0) false (fun _ _ => 7)); [|apply rs_done].
      intros i Hi. etransitivity; [|symmetry; apply (reinit_rhs_zero _ _ _ _ _ _ _ 1 PU FU1); left; reflexivity].
      unfold reinit_vmult, set_constrained, lintegrate. change (l_con (lp_space of_P) i) with false. cbv iota. unfold ltest. apply suml_zero. intros p _.
      rewrite ldot_zero_l.
      * rewrite (lvalue_ext _ p _ (fun _ => 0)) by (intros j _; reflexivity). unfold lvalue. rewrite sumn_zero by (intros; ring). ring.
      * intros d Hd. unfold reinit_flux. rewrite ldot_zero_r; [ring|]. intros e He. unfold lgradient. apply sumn_zero. intros j _. unfold lmask. destruct (l_con _ j); ring.
  - refine (conj eq_refl (conj eq_refl (conj eq_refl (conj eq_refl _)))). exists (fun _ => 0), u2. split; [|split; [apply rs_done|reflexivity]].
    intros i Hi. etransitivity; [apply Z|]. symmetry. destruct (ex_weights 2 ltac:(lia)) as (W1 & W2 & W3 & W4). fold k2 in W1, W2, W3, W4.
    apply (advance_rhs_zero _ _ _ _ _ _ _ _ 1); [exact PU|exact of_faces|exact G2|exact FV1|intros _; exact F1|].
    change (w_new (clock_weights (ck_adv k2)) + w_old (clock_weights (ck_adv k2)) + (if w_use_old_old (clock_weights (ck_adv k2)) then w_old_old (clock_weights (ck_adv k2)) else 0) = 0).
    rewrite W1, W2, W3, (W4 ltac:(lia)). cbn. lra.
Qed.
(** the phase field solver: the same cell with the velocity 1 and a contact angle at the right end, two steps *)
Section PhaseFieldExample.
Import Model_PhaseField Model_PhaseFieldRun Properties_PhaseFieldRun.
Definition of_pf : pf_problem := MkPfp ex_space [MkCF 1 (fun i => match i with O => 0 | _ => 1 end)] (MkCH 1 1 1 (1/2)) true (1/1000) 3.
Definition of_pts : list cpoint := [MkCP (ex_pt (1/4)) (fun _ => 1); MkCP (ex_pt (3/4)) (fun _ => 1)].
(** the solver returns the right hand side scaled by a number that depends on its arguments *)
Definition of_solver (m i : nat) (st : stored) (rhs : block2) : block2 := b_scal (INR (S (m + i))) rhs.
Definition of_one : block2 := MkB2 (fun _ => 1) (fun _ => 0).
Definition of_a : pf_state := MkPfs (ck_ns (setup_clocks (N:=RNum) ex_params)) of_one of_one of_one.
Example C119_nonvacuous_phase_field : exists b, pf_mesh of_pf (map c_pt of_pts) (fun _ => of_pts) 2 /\
  faces_consistent (pp_space of_pf) (pp_faces of_pf) /\ (forall m, zero_to_zero (pp_space of_pf) (of_solver m)) /\
  b_filled (pp_space of_pf) of_one 1 /\ pf_setup ex_params of_one of_a /\
  pf_run of_pf fixed (fun _ => of_pts) of_solver of_a 2 b /\ at_end (pfs_clock b) = false.
Proof.
  assert (D : forall a m, exists b, pf_time_step of_pf None of_pts (of_solver m) a = Some b).
  { intros a m. unfold pf_time_step, advance_cahn_hilliard. change (pp_newton of_pf) with true. cbv iota zeta. destruct (newton_loop _ _ _ _ _ _ _ _ _) as [U l]. eexists. reflexivity. }
  destruct (D of_a 0%nat) as [b1 T1]. destruct (D b1 1%nat) as [b2 T2].
  assert (R1 : pf_run of_pf fixed (fun _ => of_pts) of_solver of_a 1 b1).
  { apply (pr_step _ _ _ _ _ 0 of_a b1); [apply pr_start|exact (proj1 (ex_clock 0 ltac:(lia)))|exact T1]. }
  destruct (pf_run_clock _ ex_params _ _ _ of_a _ _ eq_refl R1) as [C1 _].
  assert (R2 : pf_run of_pf fixed (fun _ => of_pts) of_solver of_a 2 b2).
  { apply (pr_step _ _ _ _ _ 1 b1 b2); [exact R1|rewrite C1; exact (proj1 (ex_clock 1 ltac:(lia)))|exact T2]. }
  destruct (pf_run_clock _ ex_params _ _ _ of_a _ _ eq_refl R2) as [C2 _].
  exists b2. refine (conj _ (conj _ (conj _ (conj _ (conj _ (conj R2 _)))))).
  - split; [exact (proj1 (ex_mesh false))|]. split; [intros i _; reflexivity|]. intros; reflexivity.
  - intros f [<-|[]]. cbn. lra.
  - intros m i st rhs [A B]. split; intros j Hj; unfold of_solver, b_scal; cbn [b_c b_w]; [rewrite (A j Hj)|rewrite (B j Hj)]; ring.
  - split; intros j _; reflexivity.
  - split; reflexivity.
  - rewrite C2. exact (proj1 (ex_clock 2 ltac:(lia))).
Qed.
End PhaseFieldExample.
(** a cell that meets the hypotheses of C119_force *)
Definition of_cell : force_cell :=
  MkFCell 1 (fun _ => 1) 1 (fun _ _ => 1) (fun _ => 0%nat) 2 (fun _ _ => 1/2) (fun _ j _ => match j with O => -1 | _ => 1 end)
          2 (fun _ i _ => match i with O => -1 | _ => 1 end) (fun i j => if Nat.eqb i j then 1 else 0) (fun _ => 1) (fun _ => 3).
Example C119_nonvacuous_force : cell_consistent 1 of_cell /\ (forall j, (j < fc_nls of_cell)%nat -> fc_ls of_cell j = 1) /\
  compute_heaviside 1 (fun _ => 1) [[0;1]%nat] (fun _ => 5) 0%nat = (1 + 1) / 2.
Proof.
  split; [|split; [reflexivity|]].
  - refine (conj _ (conj _ (conj _ _))).
    + intros q _. cbn. lra.
    + intros q d _ _. cbn. lra.
    + intros q d _ _. cbn. lra.
    + intros [|[|i]] Hi; cbn; [lra|lra|cbn in Hi; lia].
  - apply (C119_indicator 1 1 (fun _ => 1) [[0;1]%nat] (fun _ => 5) (or_introl eq_refl) (fun _ _ _ _ => eq_refl) [0;1]%nat 0%nat); left; reflexivity.
Qed.
