(** * C104: the compiled kernels fit the elements, or the program says that they don't *)
From Coq Require Import List Bool Arith ZArith Reals Lia Lra.
From Verif Require Import Model_Dispatch.
Import ListNotations.

(** ** Specification *)
(** an evaluator object fits: either its sizes are found at run time, or its template arguments are the degree of the polynomials it is
    pointed at (velocity, pressure one less, level set subdivisions) and the points per direction of the quadrature formula it is
    pointed at (degree + 1, degree, two on each subdivision) *)
Definition fits (c : config) (e : evaluator) : Prop :=
  e_degree e = (-1)%Z \/
  use_simplex c = false /\
  e_degree e = match e_dof e with O => Z.of_nat (vd c) | 1 => (Z.of_nat (vd c) - 1)%Z | _ => Z.of_nat (ls c) end /\
  e_nq e = match e_quad e with O => (Z.of_nat (vd c) + 1)%Z | 1 => Z.of_nat (vd c) | _ => (2 * Z.of_nat (ls c))%Z end.
(** sizes found at run time are only used where there is no tensor product *)
Definition compiled (c : config) (e : evaluator) : Prop := use_simplex c = false -> e_degree e <> (-1)%Z.
(** the registered degree the object is pointed at *)
Definition registered (c : config) (e : evaluator) : Prop :=
  e_degree e = (-1)%Z \/ e_degree e = Z.of_nat (element_degree c (e_dof e)) /\ e_nq e = Z.of_nat (quadrature_points c (e_quad e)).

Lemma between_spec l x u : between l x u = true <-> l <= x <= u.
Proof. unfold between. rewrite andb_true_iff, !Nat.leb_le. tauto. Qed.
Lemma chain_spec : forall l x f, (exists a, In a l /\ x = a /\ chain l x f = f (Z.of_nat a)) \/ (~ In x l /\ chain l x f = Nothing).
Proof.
  induction l as [|a l IH]; intros x f; [right; split; [intros []|reflexivity]|]. cbn [chain].
  destruct (Nat.eqb_spec x a) as [E|E]; [left; exists a; cbn; auto|].
  destruct (IH x f) as [(b & Ib & Eb & F)|[N F]]; [left; exists b; cbn; auto|right; split; [intros [->|I]; auto|exact F]].
Qed.
(** inversion of the macros *)
Lemma expand_ns_inv c k evs : expand_ns c k = Ran evs ->
  1 <= vd c - 1 <= 5 /\ (use_simplex c = true /\ evs = k (-1)%Z \/ use_simplex c = false /\ evs = k (Z.of_nat (vd c - 1))).
Proof.
  unfold expand_ns, assert_throw. cbn [element_degree]. destruct (between 1 (vd c - 1) 5) eqn:B; [|discriminate]. apply between_spec in B.
  destruct (use_simplex c); intros H; [inversion H; auto|].
  destruct (chain_spec [1; 2; 3; 4; 5] (vd c - 1) (fun d => Ran (k d))) as [(a & Ia & E & F)|[N F]]; rewrite F in H; [inversion H; subst; auto|discriminate].
Qed.
Lemma expand_ls_inv c k evs : expand_ls c k = Ran evs ->
  use_simplex c = true /\ evs = k (-1)%Z \/ use_simplex c = false /\ 1 <= ls c <= 4 /\ evs = k (Z.of_nat (ls c)).
Proof.
  unfold expand_ls, assert_throw. cbn [element_degree]. destruct (use_simplex c); intros H; [inversion H; auto|]. right.
  destruct (between 1 (ls c) 4) eqn:B; [|discriminate]. apply between_spec in B.
  destruct (chain_spec [1; 2; 3; 4] (ls c) (fun d => Ran (k d))) as [(a & Ia & E & F)|[N F]]; rewrite F in H; [inversion H; subst; auto|discriminate].
Qed.
Lemma two_chains l1 l2 x u (k : Z -> Z -> list evaluator) evs : chain l1 x (fun d => chain l2 u (fun v => Ran (k d v))) = Ran evs ->
  evs = k (Z.of_nat x) (Z.of_nat u).
Proof.
  destruct (chain_spec l1 x (fun d => chain l2 u (fun v => Ran (k d v)))) as [(a & Ia & E & F)|[N F]]; rewrite F; [|discriminate].
  destruct (chain_spec l2 u (fun v => Ran (k (Z.of_nat a) v))) as [(b & Ib & E2 & F2)|[N F2]]; rewrite F2; [|discriminate].
  intros H. inversion H. subst. reflexivity.
Qed.
Lemma expand_advance_inv c k evs : expand_advance c k = Ran evs ->
  use_simplex c = true /\ evs = k (-1)%Z (-1)%Z \/ use_simplex c = false /\ 1 <= vd c <= 5 /\ 1 <= ls c <= 4 /\ evs = k (Z.of_nat (ls c)) (Z.of_nat (vd c)).
Proof.
  unfold expand_advance, assert_throw. cbn [element_degree]. destruct (use_simplex c); intros H; [inversion H; auto|]. right.
  destruct (between 1 (vd c) 5) eqn:B; [|discriminate]. destruct (between 1 (ls c) 4) eqn:B2; [|discriminate]. apply between_spec in B, B2.
  apply two_chains in H. auto.
Qed.
Lemma expand_force_inv c k evs : expand_force c k = Ran evs ->
  use_simplex c = true /\ evs = k (-1)%Z (-1)%Z \/ use_simplex c = false /\ 2 <= vd c <= 5 /\ 1 <= ls c <= 4 /\ evs = k (Z.of_nat (ls c)) (Z.of_nat (vd c)).
Proof.
  unfold expand_force, assert_throw. cbn [element_degree]. destruct (use_simplex c); intros H; [inversion H; auto|]. right.
  destruct (between 2 (vd c) 5) eqn:B; [|discriminate]. destruct (between 1 (ls c) 4) eqn:B2; [|discriminate]. apply between_spec in B, B2.
  apply two_chains in H. auto.
Qed.
Lemma expand_pf_inv c k evs : expand_pf c k = Ran evs -> 2 <= vd c <= 5 /\ 1 <= ls c <= 4 /\ evs = k (Z.of_nat (ls c)) (Z.of_nat (vd c)).
Proof.
  unfold expand_pf, assert_throw. cbn [element_degree]. intros H.
  destruct (between 2 (vd c) 5) eqn:B; [|discriminate]. destruct (between 1 (ls c) 4) eqn:B2; [|discriminate]. apply between_spec in B, B2.
  apply two_chains in H. auto.
Qed.
Lemma expand_pf_vmult_inv c k evs : expand_pf_vmult c k = Ran evs -> 1 <= ls c <= 4 /\ evs = k (Z.of_nat (ls c)).
Proof.
  unfold expand_pf_vmult. cbn [element_degree]. intros H.
  destruct (chain_spec [1; 2; 3; 4] (ls c) (fun d => Ran (k d))) as [(a & Ia & E & F)|[N F]]; rewrite F in H; [|discriminate].
  inversion H. subst a. cbn in Ia. split; [lia|reflexivity].
Qed.
Lemma expand_pf_mass_inv c k evs : expand_pf_mass c k = Ran evs -> 1 <= ls c <= 4 /\ evs = k (Z.of_nat (ls c)).
Proof. unfold expand_pf_mass, assert_throw. destruct (between 1 _ 4); [|discriminate]. apply expand_pf_vmult_inv. Qed.

(** the solver of a call: the phase field solver exists only on hypercubes with the standard pressure element *)
Definition phase_field_op (o : op) : bool := match o with PfForce | PfResidual | PfVmult | PfMass => true | _ => false end.

(** every kernel that runs fits the elements and formulas in use; it is never empty; and on hypercubes it has compiled-in sizes *)
Theorem C104_fits : forall c o evs, (phase_field_op o = true -> use_simplex c = false) ->
  call c o = Ran evs -> evs <> [] /\ Forall (fits c) evs /\ Forall (compiled c) evs.
Proof.
  intros c o evs HP H.
  assert (Z1 : forall n, (Z.of_nat n <> -1)%Z) by (intros; lia).
  assert (K : forall l : list evaluator, Forall (fun e => e_degree e <> (-1)%Z) l -> Forall (compiled c) l) by (intros l; apply Forall_impl; intros e E _; exact E).
  assert (KS : use_simplex c = true -> forall l : list evaluator, Forall (compiled c) l).
  { intros E l. apply Forall_forall. intros e _ E2. congruence. }
  destruct o; cbn [call] in H; cbn [phase_field_op] in HP;
    try (apply expand_ns_inv in H as [B [[E ->]|[E ->]]]);
    try (apply expand_ls_inv in H as [[E ->]|[E [B ->]]]);
    try (apply expand_advance_inv in H as [[E ->]|[E [B [B2 ->]]]]);
    try (apply expand_force_inv in H as [[E ->]|[E [B [B2 ->]]]]);
    try (apply expand_pf_inv in H as [B [B2 ->]]; specialize (HP eq_refl); rename HP into E);
    try (apply expand_pf_vmult_inv in H as [B ->]; specialize (HP eq_refl); rename HP into E);
    try (apply expand_pf_mass_inv in H as [B ->]; specialize (HP eq_refl); rename HP into E);
    try (destruct (variable_poisson c));
    unfold k_ns, k_divergence, k_poisson, k_mass, k_convdiff, k_advance, k_advance_rhs, k_normal, k_normal_rhs, k_curvature, k_curvature_rhs, k_reinit, k_reinit_rhs, k_projection, k_force, k_pf_force, k_pf_residual, k_pf_vmult, k_pf_mass, vel_degree_of, nq_ls;
    rewrite ?(proj2 (Z.eqb_neq _ _) (Z1 _)); cbn [Z.eqb Pos.eqb];
    (split; [discriminate|]);
    (refine (conj _ _);
     [repeat (apply Forall_cons; [unfold fits; cbn [e_dof e_quad e_degree e_nq]; first [left; reflexivity | right; rewrite E; refine (conj eq_refl (conj _ _)); lia]|]); apply Forall_nil
     |first [apply KS; exact E | apply K; repeat (apply Forall_cons; [cbn [e_degree]; lia|]); apply Forall_nil]]).
Qed.
Print Assumptions C104_fits.
(** and these are the elements and formulas that were registered *)
Theorem C104_registered : forall c e, 1 <= vd c -> fits c e -> registered c e.
Proof.
  intros c e HV [F|[E [F1 F2]]]; [left; exact F|right]. unfold element_degree, quadrature_points. rewrite F1, F2, E.
  destruct (e_dof e) as [|[|d]], (e_quad e) as [|[|q]]; split; lia.
Qed.
Print Assumptions C104_registered.

(** ** Never silently nothing *)
Lemma chain_in l x f : In x l -> chain l x f = f (Z.of_nat x).
Proof. intros I. destruct (chain_spec l x f) as [(a & _ & -> & F)|[N _]]; [exact F|contradiction]. Qed.
Lemma chain_notin l x f : ~ In x l -> chain l x f = Nothing.
Proof. intros I. destruct (chain_spec l x f) as [(a & Ia & -> & _)|[N F]]; [contradiction|exact F]. Qed.
Lemma in14 x : In x [1; 2; 3; 4] <-> 1 <= x <= 4.
Proof. cbn. lia. Qed.
Lemma in15 x : In x [1; 2; 3; 4; 5] <-> 1 <= x <= 5.
Proof. cbn. lia. Qed.
Lemma in25 x : In x [2; 3; 4; 5] <-> 2 <= x <= 5.
Proof. cbn. lia. Qed.
Lemma between_false l x u : between l x u = false <-> ~ (l <= x <= u).
Proof. rewrite <- between_spec. destruct (between l x u); split; congruence. Qed.
Lemma ns_outcome c k : expand_ns c k = if between 1 (vd c - 1) 5 then Ran (k (if use_simplex c then (-1)%Z else Z.of_nat (vd c - 1))) else Threw.
Proof.
  unfold expand_ns, assert_throw. cbn [element_degree]. destruct (between 1 (vd c - 1) 5) eqn:B; [|reflexivity]. apply between_spec in B.
  destruct (use_simplex c); [reflexivity|]. rewrite chain_in by (apply in15; exact B). reflexivity.
Qed.
Lemma ls_outcome c k : expand_ls c k = if use_simplex c then Ran (k (-1)%Z) else if between 1 (ls c) 4 then Ran (k (Z.of_nat (ls c))) else Threw.
Proof.
  unfold expand_ls, assert_throw. cbn [element_degree]. destruct (use_simplex c); [reflexivity|]. destruct (between 1 (ls c) 4) eqn:B; [|reflexivity]. apply between_spec in B.
  rewrite chain_in by (apply in14; exact B). reflexivity.
Qed.
Lemma advance_outcome c k : expand_advance c k = if use_simplex c then Ran (k (-1)%Z (-1)%Z) else if between 1 (vd c) 5 && between 1 (ls c) 4 then Ran (k (Z.of_nat (ls c)) (Z.of_nat (vd c))) else Threw.
Proof.
  unfold expand_advance, assert_throw. cbn [element_degree]. destruct (use_simplex c); [reflexivity|]. destruct (between 1 (vd c) 5) eqn:B; [|reflexivity]. destruct (between 1 (ls c) 4) eqn:B2; [|reflexivity]. apply between_spec in B, B2.
  rewrite chain_in by (apply in14; exact B2). rewrite chain_in by (apply in15; exact B). reflexivity.
Qed.
Lemma force_outcome c k : expand_force c k = if use_simplex c then Ran (k (-1)%Z (-1)%Z) else if between 2 (vd c) 5 && between 1 (ls c) 4 then Ran (k (Z.of_nat (ls c)) (Z.of_nat (vd c))) else Threw.
Proof.
  unfold expand_force, assert_throw. cbn [element_degree]. destruct (use_simplex c); [reflexivity|]. destruct (between 2 (vd c) 5) eqn:B; [|reflexivity]. destruct (between 1 (ls c) 4) eqn:B2; [|reflexivity]. apply between_spec in B, B2.
  rewrite chain_in by (apply in14; exact B2). rewrite chain_in by (apply in25; exact B). reflexivity.
Qed.
Lemma pf_outcome c k : expand_pf c k = if between 2 (vd c) 5 && between 1 (ls c) 4 then Ran (k (Z.of_nat (ls c)) (Z.of_nat (vd c))) else Threw.
Proof.
  unfold expand_pf, assert_throw. cbn [element_degree]. destruct (between 2 (vd c) 5) eqn:B; [|reflexivity]. destruct (between 1 (ls c) 4) eqn:B2; [|reflexivity]. apply between_spec in B, B2.
  rewrite chain_in by (apply in14; exact B2). rewrite chain_in by (apply in25; exact B). reflexivity.
Qed.
(** one call: an operator product of the phase field solver is the only one that can do nothing without saying so, exactly outside one to
    four subdivisions; the residual, which comes first, then throws *)
Theorem C104_silent : forall c o, call c o = Nothing <-> o = PfVmult /\ ~ (1 <= ls c <= 4).
Proof.
  intros c o. split.
  - intros H.
    destruct o; cbn [call] in H; rewrite ?ns_outcome, ?ls_outcome, ?advance_outcome, ?force_outcome, ?pf_outcome in H;
    repeat match type of H with (if ?b then _ else _) = _ => destruct b; [discriminate|] end; try discriminate.
    + split; [reflexivity|]. intros B. unfold expand_pf_vmult in H. cbn [element_degree] in H. rewrite chain_in in H by (apply in14; exact B). discriminate.
    + unfold expand_pf_mass, assert_throw in H. cbn [element_degree] in H. destruct (between 1 (ls c) 4) eqn:B; [|discriminate]. apply between_spec in B.
      rewrite chain_in in H by (apply in14; exact B). discriminate.
  - intros [-> N]. cbn [call]. unfold expand_pf_vmult. cbn [element_degree]. apply chain_notin. rewrite in14. exact N.
Qed.
Print Assumptions C104_silent.
Theorem C104_phase_field_never_silent : forall c l, ~ In Nothing (fst (run c (PfResidual :: l))).
Proof.
  intros c l H. cbn [run] in H. cbn [call] in H. rewrite pf_outcome in H.
  destruct (between 2 (vd c) 5 && between 1 (ls c) 4) eqn:B; [|exact H]. apply andb_true_iff in B as [_ B]. apply between_spec in B.
  assert (G : forall l, ~ In Nothing (fst (run c l))).
  { clear -B. induction l as [|o l IH]; [intros []|]. cbn [run]. destruct (call c o) eqn:E; cbn [fst]; [|intros []|].
    - destruct (run c l). cbn. intros [F|F]; [discriminate|]. apply IH. exact F.
    - exfalso. apply C104_silent in E as [_ E]. contradiction. }
  destruct (run c l) as [rs b] eqn:R. cbn in H. destruct H as [H|H]; [discriminate|]. apply (G l). rewrite R. exact H.
Qed.
Print Assumptions C104_phase_field_never_silent.

(** ** The exact ranges *)
Lemma run_all c l : (snd (run c l) = true <-> Forall (fun o => call c o <> Threw) l).
Proof.
  induction l as [|o l IH]; [split; [constructor|reflexivity]|]. cbn [run]. destruct (call c o) eqn:E.
  - destruct (run c l) as [rs b]. cbn [snd] in *. rewrite IH. split; intros H; [constructor; [congruence|exact H]|inversion H; assumption].
  - cbn. split; [discriminate|]. intros H. inversion H. congruence.
  - destruct (run c l) as [rs b]. cbn [snd] in *. rewrite IH. split; intros H; [constructor; [congruence|exact H]|inversion H; assumption].
Qed.
(** the flow solver works with velocity degrees 2 to 6, on all meshes, as documented *)
Theorem C104_flow_range : forall c, 2 <= vd c -> (snd (run c ns_calls) = true <-> vd c <= 6).
Proof.
  intros c HV. rewrite run_all. unfold ns_calls. split.
  - intros H. inversion H as [|? ? A ?]. cbn [call] in A. rewrite ns_outcome in A. destruct (between 1 (vd c - 1) 5) eqn:B; [apply between_spec in B; lia|congruence].
  - intros H. assert (B : between 1 (vd c - 1) 5 = true) by (apply between_spec; lia).
    repeat (constructor; [cbn [call]; rewrite ns_outcome, B; discriminate|]). constructor.
Qed.
Print Assumptions C104_flow_range.
(** the level set solver with it: on hypercubes degrees 2 to 5 and one to four subdivisions; on simplices everything the flow solver does *)
Theorem C104_level_set_range : forall c, 2 <= vd c ->
  (snd (run c (ls_setup ++ ls_step ++ ns_calls)) = true <-> vd c <= 6 /\ (use_simplex c = false -> vd c <= 5 /\ 1 <= ls c <= 4)).
Proof.
  intros c HV. rewrite run_all, !Forall_app. split.
  - intros [H1 [H2 H3]]. split; [apply C104_flow_range; [exact HV|]; apply run_all; exact H3|]. intros E.
    rewrite Forall_forall in H2. assert (A : call c LsForce <> Threw) by (apply H2; cbn; tauto). cbn [call] in A. rewrite force_outcome, E in A.
    destruct (between 2 (vd c) 5 && between 1 (ls c) 4) eqn:B; [|congruence]. apply andb_true_iff in B as [B B2]. apply between_spec in B, B2. lia.
  - intros [H6 H].
    assert (B0 : between 1 (vd c - 1) 5 = true) by (apply between_spec; lia).
    assert (B1 : use_simplex c = false -> between 1 (ls c) 4 = true) by (intros E; apply between_spec; apply H in E; lia).
    assert (B2 : use_simplex c = false -> between 2 (vd c) 5 = true) by (intros E; apply between_spec; apply H in E; lia).
    assert (B3 : use_simplex c = false -> between 1 (vd c) 5 = true) by (intros E; apply between_spec; apply H in E; lia).
    assert (A : forall o, In o (ls_setup ++ ls_step ++ ns_calls) -> call c o <> Threw).
    { intros o Io. unfold ls_setup, ls_step, ns_calls in Io. cbn [app In] in Io.
      repeat (destruct Io as [<-|Io]; [cbn [call]; rewrite ?ns_outcome, ?ls_outcome, ?advance_outcome, ?force_outcome, ?B0;
        destruct (use_simplex c); rewrite ?B1, ?B2, ?B3 by reflexivity; discriminate|]). destruct Io. }
    rewrite <- !Forall_app. apply Forall_forall. exact A.
Qed.
Print Assumptions C104_level_set_range.
(** the phase field solver with it *)
Theorem C104_phase_field_range : forall c augmented, 2 <= vd c ->
  (pf_constructor c augmented = true /\ snd (run c (pf_step ++ ns_calls)) = true <->
   use_simplex c = false /\ augmented = false /\ vd c <= 5 /\ 1 <= ls c <= 4).
Proof.
  intros c a HV. unfold pf_constructor. rewrite andb_true_iff, !negb_true_iff, run_all, Forall_app. split.
  - intros [[E E2] [H _]]. split; [exact E|]. split; [exact E2|].
    inversion H as [|? ? A ?]. cbn [call] in A. rewrite pf_outcome in A.
    destruct (between 2 (vd c) 5 && between 1 (ls c) 4) eqn:B; [|congruence]. apply andb_true_iff in B as [B B2]. apply between_spec in B, B2. lia.
  - intros [E [E2 [H5 H]]]. split; [auto|].
    assert (B0 : between 1 (vd c - 1) 5 = true) by (apply between_spec; lia).
    assert (B1 : between 1 (ls c) 4 = true) by (apply between_spec; lia).
    assert (B2 : between 2 (vd c) 5 = true) by (apply between_spec; lia).
    split.
    + unfold pf_step. constructor; [cbn [call]; rewrite pf_outcome, B1, B2; discriminate|].
      constructor; [cbn [call]; unfold expand_pf_vmult; cbn [element_degree]; rewrite chain_in by (apply in14; exact H); discriminate|].
      constructor; [cbn [call]; unfold expand_pf_mass, assert_throw; cbn [element_degree]; rewrite B1, chain_in by (apply in14; exact H); discriminate|].
      constructor; [cbn [call]; rewrite pf_outcome, B1, B2; discriminate|constructor].
    + repeat (constructor; [cbn [call]; rewrite ns_outcome, B0; discriminate|]). constructor.
Qed.
Print Assumptions C104_phase_field_range.
(** documented degree 6 (the manual says velocity degrees 2 to 6): every level set run on a hypercube mesh gets through its set-up, the
    flow solver alone would run, and the first time step throws before anything is advanced *)
Theorem C104_violation_degree_6 : forall c, use_simplex c = false -> vd c = 6 -> 1 <= ls c <= 4 ->
  snd (run c ns_calls) = true /\ snd (run c ls_setup) = true /\ run c ls_step = ([], false) /\ run c pf_step = ([], false).
Proof.
  intros c E HV HL. assert (B1 : between 1 (ls c) 4 = true) by (apply between_spec; exact HL).
  split; [apply C104_flow_range; lia|]. split.
  - apply run_all. unfold ls_setup. repeat (constructor; [cbn [call]; rewrite ls_outcome, E, B1; discriminate|]). constructor.
  - unfold ls_step, pf_step. cbn [run call]. rewrite advance_outcome, pf_outcome, E, HV. cbn. auto.
Qed.
Print Assumptions C104_violation_degree_6.
(** five or more subdivisions are accepted as a parameter and throw during the set-up of the level set solver *)
Theorem C104_subdivisions : forall c, use_simplex c = false -> ~ (1 <= ls c <= 4) -> run c ls_setup = ([], false).
Proof. intros c E N. unfold ls_setup. cbn [run call]. rewrite ls_outcome, E. apply between_false in N. rewrite N. reflexivity. Qed.
Print Assumptions C104_subdivisions.

(** ** Lengths inside the kernels *)
Open Scope R_scope.
(** on hypercubes the kernels and the assembled projection matrix use the same lengths *)
Theorem C104_lengths : forall c epsilon eps_used h, use_simplex c = false ->
  damping_length c epsilon eps_used h = matrix_damping_length c epsilon eps_used h /\
  diffusion_length c eps_used h = Rmax eps_used (h / INR (ls c)).
Proof. intros c e u h E. unfold damping_length, matrix_damping_length, diffusion_length, template_degree. cbn [element_degree]. rewrite E, <- INR_IZR_INZ. auto. Qed.
Print Assumptions C104_lengths.
(** on simplices the cell is ignored: the kernels divide by the template degree -1 *)
Lemma simplex_max a h : 0 <= a -> 0 <= h -> Rmax a (h / IZR (-1)) = a.
Proof. intros A H. apply Rmax_left. replace (h / IZR (-1)) with (- h) by field. lra. Qed.
Theorem C104_violation_lengths : forall c epsilon hmax h, use_simplex c = true -> (1 <= ls c)%nat -> 0 < epsilon -> 0 < hmax -> 0 < h ->
  let u := epsilon_used epsilon c hmax in
  damping_length c epsilon u h = hmax / INR (ls c) /\ diffusion_length c u h = epsilon * (hmax / INR (ls c)) /\
  (damping_length c epsilon u h = matrix_damping_length c epsilon u h <-> h <= hmax) /\
  (diffusion_length c u h = Rmax u (h / INR (ls c)) <-> h <= epsilon * hmax).
Proof.
  intros c e hm h E HL He Hm Hh u. assert (PL : 0 < INR (ls c)) by (apply lt_0_INR; lia).
  assert (U : u = e * (hm / INR (ls c))) by (unfold u, epsilon_used; field; lra).
  assert (UE : u / e = hm / INR (ls c)) by (rewrite U; field; lra).
  assert (P : 0 < hm / INR (ls c)) by (apply Rdiv_lt_0_compat; assumption).
  assert (PU : 0 < u) by (rewrite U; apply Rmult_lt_0_compat; assumption).
  unfold damping_length, diffusion_length, matrix_damping_length, template_degree. cbn [element_degree]. rewrite E, UE, !simplex_max by lra.
  split; [reflexivity|]. split; [exact U|].
  assert (G : forall a b, a = Rmax a b <-> b <= a). { intros a b. unfold Rmax. destruct (Rle_dec a b); lra. }
  assert (D : forall a b, a / INR (ls c) <= b / INR (ls c) <-> a <= b).
  { intros a b. unfold Rdiv. split; intros X; [eapply Rmult_le_reg_r; [|exact X]; apply Rinv_0_lt_compat; exact PL|apply Rmult_le_compat_r; [left; apply Rinv_0_lt_compat; exact PL|exact X]]. }
  split; rewrite G; [apply D|]. rewrite U. replace (e * (hm / INR (ls c))) with (e * hm / INR (ls c)) by (field; lra). apply D.
Qed.
Print Assumptions C104_violation_lengths.

(** ** Concrete cases *)
Local Open Scope nat_scope.
Example C104_taylor_hood : call (MkConfig false 2 4 true) LsAdvanceRhs =
  Ran [MkEv 2 2 4 8; MkEv 2 2 4 8; MkEv 2 2 4 8; MkEv 0 2 2 8; MkEv 0 2 2 8; MkEv 0 2 2 8].
Proof. reflexivity. Qed.
Example C104_run_witness : snd (run (MkConfig false 2 4 true) (ls_setup ++ ls_step ++ ns_calls)) = true /\
  snd (run (MkConfig true 2 2 true) (ls_setup ++ ls_step ++ ns_calls)) = true /\ snd (run (MkConfig false 6 3 false) (ls_setup ++ ls_step ++ ns_calls)) = false.
Proof. repeat split; reflexivity. Qed.
Example C104_lengths_witness : let c := MkConfig true 2 2 true in
  diffusion_length c (epsilon_used (1/2) c 1) 1 = (1/4)%R /\ Rmax (epsilon_used (1/2) c 1) (1 / INR (ls c)) = (1/2)%R.
Proof.
  split.
  - destruct (C104_violation_lengths (MkConfig true 2 2 true) (1/2) 1 1 eq_refl) as (_ & D & _); [cbn; lia|lra|lra|lra|]. rewrite D. cbn. lra.
  - unfold epsilon_used. cbn. rewrite Rmax_right; lra.
Qed.
