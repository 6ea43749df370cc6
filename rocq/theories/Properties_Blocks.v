(** * Property theorems C30, C48, C57: block preconditioners *)
From Coq Require Import Reals List Bool Lra Lia FunctionalExtensionality.
From Verif Require Import SumR Model_Parameters Model_Blocks.
Import ListNotations.
Open Scope R_scope.

(** ** Auxiliary *)
Lemma mv_plus n A x y i : mv n A (fun j => x j + y j) i = mv n A x i + mv n A y i.
Proof. unfold mv. rewrite <- sumn_plus. apply sumn_ext; intros; ring. Qed.
Lemma mv_scal n A a x i : mv n A (fun j => a * x j) i = a * mv n A x i.
Proof. unfold mv. rewrite <- sumn_scal. apply sumn_ext; intros; ring. Qed.
Lemma mv_ext n A x y i : (forall j, (j < n)%nat -> x j = y j) -> mv n A x i = mv n A y i.
Proof. intros H. unfold mv. apply sumn_ext; intros. rewrite H; auto. Qed.
Lemma mv_lin n A a b x y i : mv n A (fun j => a * x j + b * y j) i = a * mv n A x i + b * mv n A y i.
Proof. rewrite (mv_plus n A (fun j => a * x j)), !mv_scal. reflexivity. Qed.

(** ** Specification *)
(** [exact n A f]: f solves with the n x n matrix A exactly *)
Definition exact (n : nat) (A : mat) (f : dvec -> dvec) : Prop := forall v i, (i < n)%nat -> mv n A (f v) i = v i.
Definition nonsingular (n : nat) (A : mat) : Prop := forall x, (forall i, (i < n)%nat -> mv n A x i = 0) -> forall i, (i < n)%nat -> x i = 0.
Lemma solution_unique n A x y : nonsingular n A -> (forall i, (i < n)%nat -> mv n A x i = mv n A y i) -> forall i, (i < n)%nat -> x i = y i.
Proof.
  intros N H i Hi. assert (x i - y i = 0); [|lra].
  apply (N (fun j => x j - y j)); [|assumption]. intros k Hk.
  rewrite (mv_ext n A _ (fun j => 1 * x j + (-1) * y j)) by (intros; ring). rewrite mv_lin, H by assumption. ring.
Qed.

(** ** C30 *)
(** the velocity preconditioner that is in use *)
Definition velocity_solver (c : config) (inner : bool) (p : parts) (old0 : dvec) : dvec -> dvec :=
  if inner then inner_velocity p old0 else match c_velocity c with u_ilu => uu_ilu_vmult p | u_ilu_scalar => uu_ilu_scalar_multiply p | _ => uu_amg_vmult p end.
Definition mass_solver (c : config) (p : parts) : dvec -> dvec := if has_pp_mass c then pp_mass_vmult p else mass_cg p.
Definition poisson_solver (inner : bool) (p : parts) : dvec -> dvec := if inner then poisson_cg p else pp_poisson_vmult p.

Lemma velocity_part_exact nu c inner p con_u A old0 v :
  (forall i, (i < nu)%nat -> con_u i = true -> forall j, (j < nu)%nat -> A i j = if Nat.eqb i j then 1 else 0) ->
  exact nu A (velocity_solver c inner p old0) ->
  forall i, (i < nu)%nat -> mv nu A (velocity_part c inner p con_u old0 v) i = v i.
Proof.
  intros Hcon HA i Hi. unfold velocity_part, velocity_solver in *.
  destruct inner; [apply HA; assumption|]. destruct (c_velocity c); try (apply HA; assumption).
  rewrite <- (HA v i Hi). apply mv_ext. intros j Hj. destruct (con_u j) eqn:Cj; [|reflexivity].
  rewrite <- (HA v j Hj). unfold mv. rewrite (sumn_delta nu j); [|assumption|].
  - rewrite (Hcon j Hj Cj j Hj), Nat.eqb_refl. ring.
  - intros k Hk Hne. rewrite (Hcon j Hj Cj k Hk). destruct (Nat.eqb_spec j k); [congruence|ring].
Qed.

(** Exact inner solvers: the preconditioner inverts the block triangular matrix [[A, 0], [B, -S]], where the velocity
    solver is exact for A (with identity rows for constrained dofs) and S is any matrix for which the sum of
    mass and Poisson solve (the mass solve only if density = 0) is exact. All sizes. *)
Theorem C30_inverts_block_triangular :
  forall (nu np : nat) (A B S : mat) (c : config) (inner : bool) (p : parts) (con_u cs : nat -> bool),
    c_type c <> incompressible_stationary ->
    (forall i, (i < nu)%nat -> con_u i = true -> forall j, (j < nu)%nat -> A i j = if Nat.eqb i j then 1 else 0) ->
    (forall old0, exact nu A (velocity_solver c inner p old0)) ->
    (forall v i, (i < np)%nat -> divergence p v i = mv nu B v i) ->
    exact np S (fun t i => mass_solver c p t i + if c_density_positive c then poisson_solver inner p t i else 0) ->
    forall old0 src0 src1 : dvec,
      let dst := ns_precondition c inner p con_u cs old0 src0 src1 in
      (forall i, (i < nu)%nat -> mv nu A (fst dst) i = src0 i) /\
      (forall i, (i < np)%nat -> mv nu B (fst dst) i - mv np S (snd dst) i = src1 i).
Proof.
  intros nu np A B S c inner p con_u cs Ht Hcon HA HB HS old0 src0 src1 dst.
  assert (E0 : fst dst = velocity_part c inner p con_u old0 src0).
  { unfold dst, ns_precondition. destruct (is_stationary (c_type c)), (c_density_positive c); reflexivity. }
  split.
  - intros i Hi. rewrite E0. eapply velocity_part_exact; [eassumption|apply HA|assumption].
  - intros i Hi. rewrite E0.
    set (temp := fun i => -1 * src1 i + divergence p (velocity_part c inner p con_u old0 src0) i).
    assert (snd dst = fun i => mass_solver c p temp i + if c_density_positive c then poisson_solver inner p temp i else 0) as ->.
    { unfold dst, ns_precondition. assert (is_stationary (c_type c) = false) as -> by (destruct (c_type c); try reflexivity; congruence).
      unfold solve_pressure_mass, mass_solver, poisson_solver, temp. destruct (c_density_positive c); cbn [snd]; [destruct inner, (has_pp_mass c); reflexivity|]. destruct (has_pp_mass c).
      all: apply functional_extensionality; intros; ring. }
    rewrite (HS temp i Hi). unfold temp. rewrite (HB _ i Hi). ring.
Qed.
Print Assumptions C30_inverts_block_triangular.

(** Conversely: applied to the block triangular matrix, it returns the vector (nonsingular blocks). *)
Theorem C30_is_left_inverse :
  forall (nu np : nat) (A B S : mat) (c : config) (inner : bool) (p : parts) (con_u cs : nat -> bool),
    c_type c <> incompressible_stationary ->
    (forall i, (i < nu)%nat -> con_u i = true -> forall j, (j < nu)%nat -> A i j = if Nat.eqb i j then 1 else 0) ->
    (forall old0, exact nu A (velocity_solver c inner p old0)) -> nonsingular nu A -> nonsingular np S ->
    (forall v i, (i < np)%nat -> divergence p v i = mv nu B v i) ->
    exact np S (fun t i => mass_solver c p t i + if c_density_positive c then poisson_solver inner p t i else 0) ->
    forall old0 x0 x1 : dvec,
      let dst := ns_precondition c inner p con_u cs old0 (mv nu A x0) (fun i => mv nu B x0 i - mv np S x1 i) in
      (forall i, (i < nu)%nat -> fst dst i = x0 i) /\ (forall i, (i < np)%nat -> snd dst i = x1 i).
Proof.
  intros nu np A B S c inner p con_u cs Ht Hcon HA NA NS HB HS old0 x0 x1 dst.
  destruct (C30_inverts_block_triangular nu np A B S c inner p con_u cs Ht Hcon HA HB HS old0 (mv nu A x0) (fun i => mv nu B x0 i - mv np S x1 i)) as [H0 H1].
  fold dst in H0, H1. assert (E0 : forall i, (i < nu)%nat -> fst dst i = x0 i) by (apply (solution_unique nu A); assumption).
  split; [exact E0|]. apply (solution_unique np S); [assumption|]. intros i Hi. specialize (H1 i Hi). cbv beta in H1.
  rewrite (mv_ext nu B (fst dst) x0) in H1 by assumption. lra.
Qed.
Print Assumptions C30_is_left_inverse.

(** For the saddle point system K = [[A, Bt], [B, 0]] and the exact Schur complement S = B A^-1 Bt, the preconditioned operator
    satisfies (K P^-1 - I)^2 = 0: GMRES needs two steps. *)
Definition saddle (nu np : nat) (A B Bt : mat) (x : dvec * dvec) : dvec * dvec :=
  (fun i => mv nu A (fst x) i + mv np Bt (snd x) i, fun i => mv nu B (fst x) i).
Definition minus (x y : dvec * dvec) : dvec * dvec := (fun i => fst x i - fst y i, fun i => snd x i - snd y i).
Theorem C30_two_step_convergence :
  forall (nu np : nat) (A B Bt S : mat) (c : config) (inner : bool) (p : parts) (con_u cs : nat -> bool),
    c_type c <> incompressible_stationary ->
    (forall i, (i < nu)%nat -> con_u i = true -> forall j, (j < nu)%nat -> A i j = if Nat.eqb i j then 1 else 0) ->
    (forall old0, exact nu A (velocity_solver c inner p old0)) -> nonsingular nu A -> nonsingular np S ->
    (forall v i, (i < np)%nat -> divergence p v i = mv nu B v i) ->
    exact np S (fun t i => mass_solver c p t i + if c_density_positive c then poisson_solver inner p t i else 0) ->
    (* S is the Schur complement *)
    (forall w q, (forall i, (i < nu)%nat -> mv nu A w i = mv np Bt q i) -> forall i, (i < np)%nat -> mv nu B w i = mv np S q i) ->
    let P old0 v := ns_precondition c inner p con_u cs old0 (fst v) (snd v) in
    let E old0 v := minus (saddle nu np A B Bt (P old0 v)) v in
    forall o1 o2 v, (forall i, (i < nu)%nat -> fst (E o1 (E o2 v)) i = 0) /\ (forall i, (i < np)%nat -> snd (E o1 (E o2 v)) i = 0).
Proof.
  intros nu np A B Bt S c inner p con_u cs Ht Hcon HA NA NS HB HS HSchur P E o1 o2 v.
  assert (K : forall o w, (forall i, (i < nu)%nat -> mv nu A (fst (P o w)) i = fst w i) /\
                        (forall i, (i < np)%nat -> mv nu B (fst (P o w)) i - mv np S (snd (P o w)) i = snd w i)).
  { intros o w. apply (C30_inverts_block_triangular nu np A B S c inner p con_u cs Ht Hcon HA HB HS o (fst w) (snd w)). }
  assert (E0 : forall o w i, (i < nu)%nat -> fst (E o w) i = mv np Bt (snd (P o w)) i).
  { intros o w i Hi. unfold E, minus, saddle; cbn [fst snd]. destruct (K o w) as [K0 _]. rewrite K0 by assumption. ring. }
  assert (E1 : forall o w i, (i < np)%nat -> snd (E o w) i = mv np S (snd (P o w)) i).
  { intros o w i Hi. unfold E, minus, saddle; cbn [fst snd]. destruct (K o w) as [_ K1]. rewrite <- (K1 i Hi). ring. }
  assert (Z : forall i, (i < np)%nat -> snd (P o1 (E o2 v)) i = 0).
  { apply NS. intros i Hi. destruct (K o1 (E o2 v)) as [K0 K1]. specialize (K1 i Hi).
    assert (mv nu B (fst (P o1 (E o2 v))) i = mv np S (snd (P o2 v)) i) as X.
    { apply HSchur; [|assumption]. intros j Hj. rewrite (K0 j Hj). apply E0; assumption. }
    rewrite X, E1 in K1 by assumption. lra. }
  split; intros i Hi.
  - rewrite E0 by assumption. unfold mv. apply sumn_zero. intros j Hj. rewrite Z by assumption. ring.
  - rewrite E1 by assumption. unfold mv. apply sumn_zero. intros j Hj. rewrite Z by assumption. ring.
Qed.
Print Assumptions C30_two_step_convergence.

(** stationary case: pressure convection-diffusion preconditioner, exact solves; z solves the Poisson problem with the pinned
    entries set to zero *)
Theorem C30_stationary :
  forall (nu np : nat) (A B M F : mat) (c : config) (inner : bool) (p : parts) (con_u cs : nat -> bool),
    c_type c = incompressible_stationary ->
    (forall i, (i < nu)%nat -> con_u i = true -> forall j, (j < nu)%nat -> A i j = if Nat.eqb i j then 1 else 0) ->
    (forall old0, exact nu A (velocity_solver c inner p old0)) ->
    (forall v i, (i < np)%nat -> divergence p v i = mv nu B v i) ->
    (forall v i, (i < np)%nat -> convdiff p v i = mv np F v i) ->
    exact np M (mass_solver c p) ->
    forall old0 src0 src1 : dvec,
      let dst := ns_precondition c inner p con_u cs old0 src0 src1 in
      let t : dvec := fun i => divergence p (fst dst) i - src1 i in
      let z : dvec := fun i => if cs i then 0 else poisson_cg p t i in
      (forall i, (i < nu)%nat -> mv nu A (fst dst) i = src0 i) /\
      (forall i, (i < np)%nat -> t i = mv nu B (fst dst) i - src1 i) /\
      (forall i, (i < np)%nat -> mv np M (snd dst) i = if cs i then t i else mv np F z i).
Proof.
  intros nu np A B M F c inner p con_u cs Ht Hcon HA HB HF HM old0 src0 src1 dst t z.
  assert (E0 : fst dst = velocity_part c inner p con_u old0 src0).
  { unfold dst, ns_precondition. rewrite Ht. reflexivity. }
  split; [intros i Hi; rewrite E0; eapply velocity_part_exact; [eassumption|apply HA|assumption]|]. split; [intros i Hi; unfold t; rewrite HB by assumption; reflexivity|].
  intros i Hi. unfold z, t. rewrite E0. unfold dst, ns_precondition. rewrite Ht. cbn [is_stationary snd].
  set (t' := fun i => -1 * src1 i + divergence p (velocity_part c inner p con_u old0 src0) i).
  replace (fun i0 => divergence p (velocity_part c inner p con_u old0 src0) i0 - src1 i0) with t' by (apply functional_extensionality; intros; unfold t'; ring).
  assert (SM : forall v, solve_pressure_mass c p v = mass_solver c p v) by (intros; unfold solve_pressure_mass, mass_solver; destruct (has_pp_mass c); reflexivity). rewrite SM, (HM _ i Hi). destruct (cs i); [unfold t'; ring|]. rewrite HF by assumption. reflexivity.
Qed.
Print Assumptions C30_stationary.

(** a 1x1 + 1x1 instance: A = 2, B = 3, Bt = 3, S = 9/2; mass and Poisson together are exact *)
Example C30_nonvacuous :
  let p := MkParts (fun v i => v i / 2) (fun v => v) (fun v => v) (fun _ v i => v i / 2) (fun v i => v i / 9) (fun v => v) (fun v i => v i / 9) (fun v i => v i / 9) (fun v => v) (fun v i => 3 * v i) in
  let c := MkConfig u_ilu p_mass_ilu false incompressible coupled_implicit_newton true in
  (forall inner old0, exact 1 (fun _ _ => 2) (velocity_solver c inner p old0)) /\ nonsingular 1 (fun _ _ => 2) /\ nonsingular 1 (fun _ _ => 9/2) /\
  (forall v i, (i < 1)%nat -> divergence p v i = mv 1 (fun _ _ => 3) v i) /\
  exact 1 (fun _ _ => 9/2) (fun t i => mass_solver c p t i + if c_density_positive c then poisson_solver false p t i else 0) /\
  (forall w q, (forall i, (i < 1)%nat -> mv 1 (fun _ _ => 2) w i = mv 1 (fun _ _ => 3) q i) -> forall i, (i < 1)%nat -> mv 1 (fun _ _ => 3) w i = mv 1 (fun _ _ => 9/2) q i) /\
  snd (ns_precondition c false p (fun _ => false) (fun _ => false) (fun _ => 7) (fun _ => 4) (fun _ => 0)) 0%nat = 4/3.
Proof.
  cbv zeta. unfold exact, nonsingular, mv.
  refine (conj _ (conj _ (conj _ (conj _ (conj _ (conj _ _)))))).
  - intros inner old0 v i Hi. assert (i = 0%nat) by lia. subst. destruct inner; cbn; lra.
  - intros x H i Hi. assert (i = 0%nat) by lia. subst. specialize (H 0%nat Hi). cbn in H. lra.
  - intros x H i Hi. assert (i = 0%nat) by lia. subst. specialize (H 0%nat Hi). cbn in H. lra.
  - intros v i Hi. assert (i = 0%nat) by lia. subst. cbn. lra.
  - intros v i Hi. assert (i = 0%nat) by lia. subst. cbn. lra.
  - intros w q H i Hi. assert (i = 0%nat) by lia. subst. specialize (H 0%nat Hi). cbn in *. lra.
  - cbn. lra.
Qed.

(** ** C30: inner solves up to a tolerance *)
(** [close n A e x b]: the residual of x is at most e times the right hand side in the Euclidean norm *)
Definition square (n : nat) (v : dvec) : R := sumn n (fun i => v i * v i).
Definition close (n : nat) (A : mat) (e : R) (x b : dvec) : Prop := square n (fun i => b i - mv n A x i) <= e * e * square n b.
Lemma sumn_term n f k : (forall i, (i < n)%nat -> 0 <= f i) -> (k < n)%nat -> f k <= sumn n f.
Proof.
  intros H Hk. apply Rle_trans with (sumn n (fun i => if Nat.eqb i k then f i else 0)).
  - rewrite (sumn_delta n k); [rewrite Nat.eqb_refl; lra|exact Hk|]. intros i Hi Hn. destruct (Nat.eqb_spec i k); [congruence|reflexivity].
  - apply sumn_le. intros i Hi. specialize (H i Hi). destruct (Nat.eqb i k); lra.
Qed.
(** Whenever the inner velocity solve stops with its tolerance 3/100 (from whatever content the destination had), the velocity part has this
    accuracy, the pressure part sees this velocity, and the momentum equation of the block triangular system is solved up to it *)
Theorem C30_inner_tolerance :
  forall (nu np : nat) (A B S : mat) (c : config) (p : parts) (con_u cs : nat -> bool) (old0 src0 src1 : dvec),
    c_type c <> incompressible_stationary ->
    close nu A (3/100) (inner_velocity p old0 src0) src0 ->
    (forall v i, (i < np)%nat -> divergence p v i = mv nu B v i) ->
    exact np S (fun t i => mass_solver c p t i + if c_density_positive c then poisson_solver true p t i else 0) ->
    let dst := ns_precondition c true p con_u cs old0 src0 src1 in
    close nu A (3/100) (fst dst) src0 /\
    (forall i, (i < np)%nat -> mv nu B (fst dst) i - mv np S (snd dst) i = src1 i) /\
    ((forall i, (i < nu)%nat -> src0 i = 0) -> forall i, (i < nu)%nat -> mv nu A (fst dst) i = 0).
Proof.
  intros nu np A B S c p con_u cs old0 src0 src1 Ht HA HB HS dst.
  assert (E0 : fst dst = inner_velocity p old0 src0).
  { unfold dst, ns_precondition. destruct (is_stationary (c_type c)), (c_density_positive c); reflexivity. }
  rewrite E0. split; [exact HA|]. split.
  - intros i Hi. set (temp := fun i => -1 * src1 i + divergence p (inner_velocity p old0 src0) i).
    assert (snd dst = fun i => mass_solver c p temp i + if c_density_positive c then poisson_solver true p temp i else 0) as ->.
    { unfold dst, ns_precondition. assert (is_stationary (c_type c) = false) as -> by (destruct (c_type c); try reflexivity; congruence).
      unfold solve_pressure_mass, mass_solver, poisson_solver, temp. destruct (c_density_positive c); cbn [snd]; [destruct (has_pp_mass c); reflexivity|]. destruct (has_pp_mass c).
      all: apply functional_extensionality; intros; cbn; ring. }
    rewrite (HS temp i Hi). unfold temp. rewrite (HB _ i Hi). ring.
  - intros Z i Hi. unfold close, square in HA. rewrite (sumn_ext nu (fun i => src0 i * src0 i) (fun _ => 0)) in HA by (intros k Hk; rewrite Z by assumption; ring).
    rewrite (sumn_zero nu (fun _ => 0)) in HA by reflexivity.
    assert (Q : forall k, (k < nu)%nat -> (src0 k - mv nu A (inner_velocity p old0 src0) k) * (src0 k - mv nu A (inner_velocity p old0 src0) k) <= 0).
    { intros k Hk. eapply Rle_trans; [|rewrite Rmult_0_r in HA; exact HA]. apply (sumn_term nu (fun k => (src0 k - mv nu A (inner_velocity p old0 src0) k) * (src0 k - mv nu A (inner_velocity p old0 src0) k)) k); [|exact Hk].
      intros; apply Rle_0_sqr. }
    specialize (Q i Hi). rewrite (Z i Hi) in Q. nra.
Qed.
Print Assumptions C30_inner_tolerance.
(** Without inner solves the result does not depend on the content of the destination vector *)
Theorem C30_no_memory :
  forall (c : config) (p : parts) (con_u cs : nat -> bool) (old0 old1 src0 src1 : dvec),
    ns_precondition c false p con_u cs old0 src0 src1 = ns_precondition c false p con_u cs old1 src0 src1.
Proof. reflexivity. Qed.
(** With inner solves it may: two contents for which the solve stops within its tolerance, with different results.  The solver is a
    preconditioned iteration that stops as soon as the residual is small enough; the matrix is the 1 x 1 identity. *)
Theorem C30_memory_example :
  let solve := fun (old v : dvec) => if Rle_dec ((v 0%nat - old 0%nat) * (v 0%nat - old 0%nat)) (3/100 * (3/100) * (v 0%nat * v 0%nat)) then old else v in
  let p := MkParts (fun v => v) (fun v => v) (fun v => v) solve (fun v => v) (fun v => v) (fun v => v) (fun v => v) (fun v => v) (fun v => v) in
  let c := MkConfig u_ilu p_mass_ilu false incompressible coupled_implicit_newton true in
  let src : dvec := fun _ => 1 in
  (forall old, close 1 (fun _ _ => 1) (3/100) (solve old src) src) /\
  fst (ns_precondition c true p (fun _ => false) (fun _ => false) (fun _ => 0) src src) 0%nat = 1 /\
  fst (ns_precondition c true p (fun _ => false) (fun _ => false) (fun _ => 102/100) src src) 0%nat = 102/100.
Proof.
  intros solve p c src. refine (conj _ (conj _ _)).
  - intros old. unfold close, square, mv, solve, src. cbn [sumn]. destruct (Rle_dec _ _); lra.
  - cbn. unfold solve, src. destruct (Rle_dec _ _); lra.
  - cbn. unfold solve, src. destruct (Rle_dec _ _); lra.
Qed.
Print Assumptions C30_memory_example.

(** ** C57: a preconditioner that is declared constant is linear; the objects in use exist *)
Definition linear (f : dvec -> dvec) : Prop := forall a b x y, f (fun i => a * x i + b * y i) = fun i => a * f x i + b * f y i.
Theorem C57_not_variable_means_linear :
  forall (c : config) (inner : bool) (p : parts) (con_u cs : nat -> bool),
    is_variable c inner = false ->
    (* the fixed ILU/AMG sweeps and the divergence are linear; nothing is assumed on the inner Krylov solvers *)
    linear (uu_ilu_vmult p) -> linear (uu_ilu_scalar_multiply p) -> linear (uu_amg_vmult p) ->
    linear (pp_mass_vmult p) -> linear (pp_poisson_vmult p) -> linear (divergence p) ->
    forall a b old0 old1 old2 x0 x1 y0 y1,
      let P old0 u v := ns_precondition c inner p con_u cs old0 u v in
      P old0 (fun i => a * x0 i + b * y0 i) (fun i => a * x1 i + b * y1 i)
      = (fun i => a * fst (P old1 x0 x1) i + b * fst (P old2 y0 y1) i, fun i => a * snd (P old1 x0 x1) i + b * snd (P old2 y0 y1) i).
Proof.
  intros c inner p con_u cs Hv L1 L2 L3 L4 L5 L6 a b old0 old1 old2 x0 x1 y0 y1 P. unfold is_variable in Hv.
  apply orb_false_iff in Hv as [Hv Hs]. apply orb_false_iff in Hv as [Hm Hi]. apply negb_false_iff in Hm. subst inner.
  unfold P, ns_precondition. rewrite Hs. unfold solve_pressure_mass. rewrite Hm.
  change (velocity_part c false p con_u old1 x0) with (velocity_part c false p con_u old0 x0). change (velocity_part c false p con_u old2 y0) with (velocity_part c false p con_u old0 y0).
  assert (LV : linear (velocity_part c false p con_u old0)).
  { intros a' b' u v. unfold velocity_part. destruct (c_velocity c); [apply L1| |apply L3|apply L3].
    apply functional_extensionality; intros i. destruct (con_u i); [reflexivity|]. rewrite L2. reflexivity. }
  rewrite (LV a b x0 y0), (L6 a b (velocity_part c false p con_u old0 x0) (velocity_part c false p con_u old0 y0)).
  assert (ET : (fun i => -1 * (a * x1 i + b * y1 i) + (a * divergence p (velocity_part c false p con_u old0 x0) i + b * divergence p (velocity_part c false p con_u old0 y0) i))
       = (fun i => a * (-1 * x1 i + divergence p (velocity_part c false p con_u old0 x0) i) + b * (-1 * y1 i + divergence p (velocity_part c false p con_u old0 y0) i))).
  { apply functional_extensionality; intros. ring. }
  rewrite ET. rewrite (L4 a b (fun i => -1 * x1 i + divergence p (velocity_part c false p con_u old0 x0) i) (fun i => -1 * y1 i + divergence p (velocity_part c false p con_u old0 y0) i)).
  destruct (c_density_positive c); cbn [fst snd]; [|reflexivity].
  rewrite (L5 a b (fun i => -1 * x1 i + divergence p (velocity_part c false p con_u old0 x0) i) (fun i => -1 * y1 i + divergence p (velocity_part c false p con_u old0 y0) i)).
  f_equal. apply functional_extensionality; intros; ring.
Qed.
Print Assumptions C57_not_variable_means_linear.

Theorem C57_objects_exist_partial :
  forall c : config,
    (c_lin c = projection -> c_velocity c <> u_ilu_scalar /\ c_density_positive c = true) ->
    (c_type c = incompressible_stationary -> c_density_positive c = true) ->
    forall o, In o (dereferenced_by_solve c) -> In o (created c).
Proof.
  intros [v pr aug ty li de] Hp Hs o Ho. unfold dereferenced_by_solve, dereferenced_by_projection, dereferenced_by_vmult, created, has_pp_mass in *. cbn in *.
  assert (Hs' : is_stationary ty = true -> de = true) by (intros X; apply Hs; destruct ty; try discriminate; reflexivity).
  assert (X : li = projection \/ li <> projection) by (destruct li; auto; right; discriminate).
  destruct X as [->|X].
  - destruct (Hp eq_refl) as [H1 H2]. subst de. destruct v; try congruence; destruct aug, pr; cbn in *; tauto.
  - assert (Ho' : In o (velocity_object v :: (if is_stationary ty || de then [Pp_poisson] else []) ++ (if aug || match pr with p_mass_ilu => true | _ => false end then [Pp_mass] else [])))
      by (destruct li; try congruence; exact Ho). clear Ho Hp Hs X.
    destruct (is_stationary ty); [rewrite (Hs' eq_refl) in *|]; destruct de; destruct v, aug, pr; cbn in *; tauto.
Qed.
Print Assumptions C57_objects_exist_partial.
(** accepted by the parameter reader (no rejection of these combinations), but a null pointer is dereferenced *)
Theorem C57_projection_with_scalar_ilu_refuted :
  exists c o, c_lin c = projection /\ c_velocity c = u_ilu_scalar /\ c_density_positive c = true /\ In o (dereferenced_by_solve c) /\ ~ In o (created c).
Proof.
  exists (MkConfig u_ilu_scalar p_mass_ilu false incompressible projection true), Uu_amg_mat. repeat split; cbn; auto. intuition discriminate.
Qed.
Theorem C57_stationary_without_density_refuted :
  exists c o, c_type c = incompressible_stationary /\ c_density_positive c = false /\ In o (dereferenced_by_solve c) /\ ~ In o (created c).
Proof.
  exists (MkConfig u_ilu p_mass_ilu false incompressible_stationary coupled_implicit_newton false), Pp_poisson. repeat split; cbn; auto. intuition discriminate.
Qed.
Example C57_nonvacuous : is_variable (MkConfig u_ilu_scalar p_mass_ilu false incompressible coupled_implicit_newton true) false = false.
Proof. reflexivity. Qed.

(** ** C48: Cahn-Hilliard block preconditioner *)
Theorem C48_exact_inverse :
  forall (n : nat) (M K : mat) (sigma eps L weight : R) (prec mass : dvec -> dvec),
    0 < sigma -> 0 < eps -> 0 < L -> 0 < weight ->
    let c := ch_coefficient sigma eps L weight in
    let D := ch_mobility L weight in let F := ch_factor_4 sigma eps in
    exact n (fun i j => M i j + c * K i j) prec ->
    (forall v i, (i < n)%nat -> mass v i = mv n M v i) ->
    forall src0 src1 : dvec,
      let dst := ch_precondition prec mass (ch_delta_eps sigma eps L weight) src0 src1 in
      (forall i, (i < n)%nat -> mv n M (fst dst) i + 2 * c * mv n K (fst dst) i + D * mv n K (snd dst) i = src0 i) /\
      (forall i, (i < n)%nat -> mv n M (snd dst) i - F * mv n K (fst dst) i = src1 i).
Proof.
  intros n M K sigma eps L w prec mass Hs He HL Hw c D F HP HM src0 src1 dst.
  assert (HF : 0 < F) by (unfold F, ch_factor_4; apply Rmult_lt_0_compat; [apply Rmult_lt_0_compat|]; lra).
  assert (HD : 0 < D) by (unfold D, ch_mobility; apply Rdiv_lt_0_compat; [apply Rmult_lt_0_compat; assumption|assumption]).
  set (de := ch_delta_eps sigma eps L w) in *.
  assert (Hc : c = sqrt (F * D)). { unfold c, ch_coefficient, F, D, ch_factor_4, ch_mobility. f_equal. field. lra. }
  assert (Hde : de = sqrt (D / F)) by reflexivity.
  assert (Hpos : 0 < de). { rewrite Hde. apply sqrt_lt_R0. apply Rdiv_lt_0_compat; assumption. }
  assert (E1 : c * de = D).
  { assert (P1 : 0 <= F * D) by (apply Rlt_le, Rmult_lt_0_compat; assumption).
    assert (P2 : 0 <= D / F) by (apply Rlt_le, Rdiv_lt_0_compat; assumption).
    rewrite Hc, Hde, <- sqrt_mult by assumption.
    replace (F * D * (D / F)) with (D * D) by (field; lra). apply sqrt_square. lra. }
  assert (E2 : c = F * de).
  { assert (de * de = D / F) by (rewrite Hde; apply sqrt_sqrt; apply Rlt_le, Rdiv_lt_0_compat; assumption).
    apply (Rmult_eq_reg_r de); [|lra]. rewrite E1. rewrite Rmult_assoc, H. field. lra. }
  assert (PX : forall x i, mv n (fun i j => M i j + c * K i j) x i = mv n M x i + c * mv n K x i).
  { intros x i. unfold mv. rewrite <- sumn_scal, <- sumn_plus. apply sumn_ext; intros; ring. }
  unfold dst, ch_precondition. cbn [fst snd].
  set (t := fun i => src0 i + de * src1 i). set (y := prec t). set (t2 := fun i => mass y i + - de * src1 i). set (x0 := prec t2).
  assert (H1 : forall i, (i < n)%nat -> mv n M y i + c * mv n K y i = src0 i + de * src1 i).
  { intros i Hi. rewrite <- PX. unfold y. rewrite (HP t i Hi). reflexivity. }
  assert (H2 : forall i, (i < n)%nat -> mv n M x0 i + c * mv n K x0 i = mv n M y i - de * src1 i).
  { intros i Hi. rewrite <- PX. unfold x0. rewrite (HP t2 i Hi). unfold t2. rewrite HM by assumption. ring. }
  split; intros i Hi; rewrite !(mv_lin n _ (1 / de) (- (1 / de)) y x0 i); specialize (H1 i Hi); specialize (H2 i Hi).
  - rewrite <- E1. replace (c * de * (1 / de * mv n K y i + - (1 / de) * mv n K x0 i)) with (c * (mv n K y i - mv n K x0 i)) by (field; lra). lra.
  - apply (Rmult_eq_reg_l de); [|lra].
    replace (de * (1 / de * mv n M y i + - (1 / de) * mv n M x0 i - F * mv n K x0 i)) with (mv n M y i - mv n M x0 i - F * de * mv n K x0 i) by (field; lra).
    rewrite <- E2. lra.
Qed.
Print Assumptions C48_exact_inverse.
(** and it is a left inverse if M + cK is nonsingular *)
Theorem C48_left_inverse :
  forall (n : nat) (M K : mat) (sigma eps L weight : R) (prec mass : dvec -> dvec),
    0 < sigma -> 0 < eps -> 0 < L -> 0 < weight ->
    let c := ch_coefficient sigma eps L weight in
    let D := ch_mobility L weight in let F := ch_factor_4 sigma eps in
    exact n (fun i j => M i j + c * K i j) prec -> nonsingular n (fun i j => M i j + c * K i j) ->
    (forall v i, (i < n)%nat -> mass v i = mv n M v i) ->
    forall x0 x1 : dvec,
      let dst := ch_precondition prec mass (ch_delta_eps sigma eps L weight)
                   (fun i => mv n M x0 i + 2 * c * mv n K x0 i + D * mv n K x1 i) (fun i => mv n M x1 i - F * mv n K x0 i) in
      forall i, (i < n)%nat -> fst dst i = x0 i /\ snd dst i = x1 i.
Proof.
  intros n M K sigma eps L w prec mass Hs He HL Hw c D F HP HN HM x0 x1 dst.
  assert (HF : 0 < F) by (unfold F, ch_factor_4; apply Rmult_lt_0_compat; [apply Rmult_lt_0_compat|]; lra).
  assert (HD : 0 < D) by (unfold D, ch_mobility; apply Rdiv_lt_0_compat; [apply Rmult_lt_0_compat; assumption|assumption]).
  set (de := ch_delta_eps sigma eps L w) in *.
  assert (Hc : c = sqrt (F * D)). { unfold c, ch_coefficient, F, D, ch_factor_4, ch_mobility. f_equal. field. lra. }
  assert (Hde : de = sqrt (D / F)) by reflexivity.
  assert (Hpos : 0 < de). { rewrite Hde. apply sqrt_lt_R0. apply Rdiv_lt_0_compat; assumption. }
  assert (E1 : c * de = D).
  { assert (P1 : 0 <= F * D) by (apply Rlt_le, Rmult_lt_0_compat; assumption).
    assert (P2 : 0 <= D / F) by (apply Rlt_le, Rdiv_lt_0_compat; assumption).
    rewrite Hc, Hde, <- sqrt_mult by assumption.
    replace (F * D * (D / F)) with (D * D) by (field; lra). apply sqrt_square. lra. }
  assert (E2 : c = F * de).
  { assert (de * de = D / F) by (rewrite Hde; apply sqrt_sqrt; apply Rlt_le, Rdiv_lt_0_compat; assumption).
    apply (Rmult_eq_reg_r de); [|lra]. rewrite E1. rewrite Rmult_assoc, H. field. lra. }
  assert (PX : forall x i, mv n (fun i j => M i j + c * K i j) x i = mv n M x i + c * mv n K x i).
  { intros x i. unfold mv. rewrite <- sumn_scal, <- sumn_plus. apply sumn_ext; intros; ring. }
  unfold ch_precondition in dst. cbv zeta in dst.
  set (s0 := fun i => mv n M x0 i + 2 * c * mv n K x0 i + D * mv n K x1 i) in *. set (s1 := fun i => mv n M x1 i - F * mv n K x0 i) in *.
  set (y := prec (fun i => s0 i + de * s1 i)) in *.
  assert (HY : forall i, (i < n)%nat -> y i = x0 i + de * x1 i).
  { apply (solution_unique n (fun i j => M i j + c * K i j) y (fun i => x0 i + de * x1 i) HN). intros i Hi. unfold y. rewrite (HP _ i Hi), PX.
    rewrite !(mv_plus n _ x0 (fun j => de * x1 j)), !mv_scal. unfold s0, s1. rewrite <- E1. rewrite E2. ring. }
  assert (H0 : forall i, (i < n)%nat -> fst dst i = x0 i).
  { apply (solution_unique n _ _ _ HN). intros i Hi. unfold dst; cbn [fst]. rewrite (HP _ i Hi), HM, PX by assumption.
    rewrite (mv_ext n M y (fun i => x0 i + de * x1 i)) by assumption. rewrite !(mv_plus n _ x0 (fun j => de * x1 j)), !mv_scal. unfold s1. rewrite E2. ring. }
  intros i Hi. split; [apply H0; assumption|]. transitivity (1 / de * y i + - (1 / de) * fst dst i); [reflexivity|]. rewrite (H0 i Hi), (HY i Hi). field. lra.
Qed.
Print Assumptions C48_left_inverse.
Example C48_nonvacuous :
  ch_coefficient (4/3) 1 1 1 = 1 /\ exact 1 (fun i j => 1 + ch_coefficient (4/3) 1 1 1 * 1) (fun v i => v i / 2) /\ nonsingular 1 (fun i j => 1 + ch_coefficient (4/3) 1 1 1 * 1).
Proof.
  assert (E : ch_coefficient (4/3) 1 1 1 = 1) by (unfold ch_coefficient; replace (75 / 100 * (4 / 3) * 1 * 1 * 1 / 1) with 1 by lra; apply sqrt_1).
  split; [exact E|]. rewrite E. unfold exact, nonsingular, mv. cbn. split.
  - intros v i Hi. assert (i = 0%nat) by lia. subst. lra.
  - intros x H i Hi. assert (i = 0%nat) by lia. subst. specialize (H 0%nat Hi). lra.
Qed.
