(** * C99: The pressure matrix for augmented Taylor-Hood elements is a symmetric interior penalty discretization *)
From Coq Require Import Reals List Arith Bool Lia Lra Permutation.
From Verif Require Import SumR Model_InteriorPenalty.
Import ListNotations.
Open Scope R_scope.

(** ** Specification *)
(** a side of an inner face: the cell and its face *)
Notation side := (ipcell * piece)%type.
Definition area (p : piece) : R := suml (pc_points p) fp_JxW.
(** outward normal derivative of the continuous part of the finite element function with coefficients u, integrated over the face *)
Definition flux (s : side) (u : nat -> R) : R :=
  suml (pc_points (snd s)) (fun q => fp_JxW q * sumn (ic_n (fst s)) (fun i => u (ic_dof (fst s) i) * fp_dn q i)).
(** values and derivatives including the constant *)
Definition value (s : side) (q : fpoint) (u : nat -> R) : R := sumn (S (ic_n (fst s))) (fun i => u (ic_dof (fst s) i) * fp_val q i).
Definition deriv (s : side) (q : fpoint) (u : nat -> R) : R := sumn (S (ic_n (fst s))) (fun i => u (ic_dof (fst s) i) * fp_dn q i).
(** integral of coefficient * grad u * grad v *)
Definition grad_at (c : ipcell) (q : lpoint) (d : nat) (u : nat -> R) : R := sumn (S (ic_n c)) (fun i => u (ic_dof c i) * lp_grad q i d).
Definition stiffness (S : psetup) (c : ipcell) (u v : nat -> R) : R :=
  suml (ic_points c) (fun q => lp_JxW q / rho_weight S q * sumn (ps_dim S) (fun d => grad_at c q d u * grad_at c q d v)).
(** two sides of the same face: average of the normal derivative (normal of the first side) and jump *)
Definition average (a b : side) (u : nat -> R) : R := 1 / 2 * (flux a u - flux b u).
Definition jump (a b : side) (u : nat -> R) : R := u (ic_const (fst a)) - u (ic_const (fst b)).
Definition interior_penalty (k pen : R) (a b : side) (u v : nat -> R) : R :=
  k * (- average a b u * jump a b v - average a b v * jump a b u + pen * area (snd a) * jump a b u * jump a b v).
Definition nitsche_form (k pen : R) (s : side) (u v : nat -> R) : R :=
  k * suml (pc_points (snd s)) (fun q => fp_JxW q * (2 * pen * value s q u * value s q v - deriv s q u * value s q v - deriv s q v * value s q u)).
(** the two sides as seen by the mesh *)
Definition opposite (a b : side) : Prop :=
  pc_kind (snd a) = Inner /\ pc_kind (snd b) = Inner /\
  pc_neigh (snd a) = ic_const (fst b) /\ pc_neigh (snd b) = ic_const (fst a) /\ area (snd a) = area (snd b) /\
  pc_ext_own (snd a) = pc_ext_neigh (snd b) /\ pc_ext_own (snd b) = pc_ext_neigh (snd a) /\
  pc_fine (snd a) = pc_coarse (snd b) /\ pc_fine (snd b) = pc_coarse (snd a) /\ (pc_fine (snd a) = true -> pc_fine (snd b) = true -> False).
Definition kind_is (k : fkind) (p : piece) : bool := match k, pc_kind p with Inner, Inner | Open, Open | Wall, Wall => true | _, _ => false end.
Definition sides (k : fkind) (cells : list ipcell) : list side := flat_map (fun c => map (fun p => (c, p)) (filter (kind_is k) (ic_pieces c))) cells.
(** every inner face has two sides in the mesh *)
Definition paired (cells : list ipcell) (faces : list (side * side)) : Prop :=
  Permutation (sides Inner cells) (flat_map (fun ab => [fst ab; snd ab]) faces) /\ Forall (fun ab => opposite (fst ab) (snd ab)) faces.
Definition same_density (S : psetup) (faces : list (side * side)) : Prop :=
  Forall (fun ab => used_density S (snd (fst ab)) = used_density S (snd (snd ab))) faces.
Definition discretization (S : psetup) (cells : list ipcell) (faces : list (side * side)) (u v : nat -> R) : R :=
  suml cells (fun c => stiffness S c u v) +
  suml faces (fun ab => interior_penalty (scale S (snd (fst ab))) (penalty S (snd (fst ab))) (fst ab) (snd ab) u v) +
  suml (sides Open cells) (fun s => nitsche_form (scale S (snd s)) (degsq S / pc_ext_own (snd s)) s u v).

(** ** Sums *)
Lemma suml_flat {A B} (l : list A) (g : A -> list B) f : suml (flat_map g l) f = suml l (fun x => suml (g x) f).
Proof. induction l as [|x l IH]; cbn; [reflexivity|]. rewrite suml_app, IH. reflexivity. Qed.
Lemma suml_perm {A} (l l' : list A) f : Permutation l l' -> suml l f = suml l' f.
Proof. induction 1; cbn; lra. Qed.
Lemma sumn_seq n f : suml (seq 0 n) f = sumn n f.
Proof.
  assert (E : forall k, suml (seq k n) f = sumn n (fun i => f (k + i)%nat)).
  { induction n as [|n IH]; intros k; [reflexivity|]. rewrite seq_S, suml_app, IH. cbn. lra. }
  rewrite E. reflexivity.
Qed.
Lemma sumn_last n f : sumn (S n) f = sumn n f + f n.
Proof. cbn. lra. Qed.
Lemma suml_scal_r {A} (l : list A) a f : suml l (fun x => f x * a) = suml l f * a.
Proof. induction l as [|x l IH]; cbn; [ring|]. rewrite IH. ring. Qed.

(** ** The form of the assembled matrix *)
Definition local_form (c : ipcell) (M : nat -> nat -> R) (u v : nat -> R) : R :=
  sumn (S (ic_n c)) (fun i => sumn (S (ic_n c)) (fun j => M i j * u (ic_dof c i) * v (ic_dof c j))).
Definition row_form (c : ipcell) (m : nat -> R) (u : nat -> R) : R := sumn (S (ic_n c)) (fun i => m i * u (ic_dof c i)).
Lemma local_rows c M u v : local_form c M u v = sumn (ic_n c) (fun i => row_form c (M i) v * u (ic_dof c i)) + row_form c (M (ic_n c)) v * u (ic_const c).
Proof.
  unfold local_form. rewrite sumn_last. unfold row_form, ic_const. rewrite <- !sumn_scal_r. f_equal; [|apply sumn_ext; intros; ring].
  apply sumn_ext. intros i _. rewrite <- !sumn_scal_r. apply sumn_ext. intros; ring.
Qed.
Lemma local_row c M m u v : local_form c (fun a b => if Nat.eqb a (ic_n c) then M a b - m b else M a b) u v = local_form c M u v - u (ic_const c) * row_form c m v.
Proof.
  rewrite !local_rows. rewrite Nat.eqb_refl.
  rewrite (sumn_ext (ic_n c) _ (fun i => row_form c (M i) v * u (ic_dof c i))).
  2:{ intros i Hi. rewrite (proj2 (Nat.eqb_neq i (ic_n c))) by lia. reflexivity. }
  assert (E : row_form c (fun b => M (ic_n c) b - m b) v = row_form c (M (ic_n c)) v - row_form c m v).
  { unfold row_form. rewrite <- sumn_minus. apply sumn_ext. intros; ring. }
  rewrite E. ring.
Qed.
Lemma local_col c M m u v : local_form c (fun a b => if Nat.eqb b (ic_n c) then M a b - m a else M a b) u v = local_form c M u v - row_form c m u * v (ic_const c).
Proof.
  unfold local_form, row_form. rewrite <- sumn_scal_r, <- sumn_minus. apply sumn_ext. intros i Hi.
  rewrite !sumn_last. rewrite Nat.eqb_refl.
  rewrite (sumn_ext (ic_n c) (fun j => (if Nat.eqb j (ic_n c) then M i j - m i else M i j) * u (ic_dof c i) * v (ic_dof c j)) (fun j => M i j * u (ic_dof c i) * v (ic_dof c j))).
  2:{ intros j Hj. rewrite (proj2 (Nat.eqb_neq j (ic_n c))) by lia. reflexivity. }
  unfold ic_const. ring.
Qed.
Lemma local_plus c M M' u v : local_form c (fun a b => M a b + M' a b) u v = local_form c M u v + local_form c M' u v.
Proof. unfold local_form. rewrite <- sumn_plus. apply sumn_ext. intros i _. rewrite <- sumn_plus. apply sumn_ext. intros j _. ring. Qed.
Lemma laplace_form S c u v : local_form c (laplace S c) u v = stiffness S c u v.
Proof.
  unfold local_form, laplace, stiffness.
  transitivity (suml (ic_points c) (fun q => sumn (Datatypes.S (ic_n c)) (fun i => sumn (Datatypes.S (ic_n c)) (fun j => sumn (ps_dim S) (fun d => lp_JxW q / rho_weight S q * lp_grad q i d * lp_grad q j d) * u (ic_dof c i) * v (ic_dof c j))))).
  { rewrite suml_sumn. apply sumn_ext. intros i _. rewrite suml_sumn. apply sumn_ext. intros j _. rewrite <- !suml_scal_r. reflexivity. }
  apply suml_ext. intros q _. unfold grad_at.
  transitivity (sumn (Datatypes.S (ic_n c)) (fun i => sumn (ps_dim S) (fun d => sumn (Datatypes.S (ic_n c)) (fun j => lp_JxW q / rho_weight S q * ((u (ic_dof c i) * lp_grad q i d) * (v (ic_dof c j) * lp_grad q j d)))))).
  { apply sumn_ext. intros i _. rewrite sumn_swap. apply sumn_ext. intros j _. rewrite <- !sumn_scal_r. apply sumn_ext. intros d _. ring. }
  rewrite sumn_swap. rewrite <- sumn_scal. apply sumn_ext. intros d _.
  rewrite <- sumn_scal_r, <- sumn_scal. apply sumn_ext. intros i _. rewrite <- !sumn_scal. apply sumn_ext. intros j _. ring.
Qed.
Lemma nitsche_local S c p u v : local_form c (nitsche S p) u v = nitsche_form (scale S p) (degsq S / pc_ext_own p) (c, p) u v.
Proof.
  unfold local_form, nitsche, nitsche_form. cbv zeta. set (pen := degsq S / pc_ext_own p). set (k := scale S p). cbn [snd fst].
  transitivity (suml (pc_points p) (fun q => sumn (Datatypes.S (ic_n c)) (fun i => sumn (Datatypes.S (ic_n c)) (fun j => k * fp_JxW q *
     ((2 * pen * (u (ic_dof c i) * fp_val q i) * (v (ic_dof c j) * fp_val q j)) - (u (ic_dof c i) * fp_dn q i) * (v (ic_dof c j) * fp_val q j) - (u (ic_dof c i) * fp_val q i) * (v (ic_dof c j) * fp_dn q j)))))).
  { rewrite suml_sumn. apply sumn_ext. intros i _. rewrite suml_sumn. apply sumn_ext. intros j _. rewrite <- !suml_scal_r. apply suml_ext. intros q _. ring. }
  rewrite <- suml_scal. apply suml_ext. intros q _. unfold value, deriv. cbn [fst snd].
  set (U := fun i => u (ic_dof c i) * fp_val q i). set (V := fun i => v (ic_dof c i) * fp_val q i). set (DU := fun i => u (ic_dof c i) * fp_dn q i). set (DV := fun i => v (ic_dof c i) * fp_dn q i).
  transitivity (sumn (Datatypes.S (ic_n c)) (fun i => k * fp_JxW q * (2 * pen * U i * sumn (Datatypes.S (ic_n c)) V - DU i * sumn (Datatypes.S (ic_n c)) V - U i * sumn (Datatypes.S (ic_n c)) DV))).
  { apply sumn_ext. intros i _. rewrite (sumn_ext _ _ (fun j => k * fp_JxW q * (2 * pen * U i - DU i) * V j - k * fp_JxW q * U i * DV j)) by (intros; unfold U, V, DU, DV; ring).
    rewrite sumn_minus, !sumn_scal. ring. }
  rewrite (sumn_ext _ _ (fun i => k * fp_JxW q * (2 * pen * sumn (Datatypes.S (ic_n c)) V - sumn (Datatypes.S (ic_n c)) DV) * U i - k * fp_JxW q * sumn (Datatypes.S (ic_n c)) V * DU i)) by (intros; ring).
  rewrite sumn_minus, !sumn_scal. ring.
Qed.
(** contribution of one inner side *)
Definition side_form (S : psetup) (s : side) (u v : nat -> R) : R :=
  let k := scale S (snd s) in let du := u (ic_const (fst s)) - u (pc_neigh (snd s)) in let dv := v (ic_const (fst s)) - v (pc_neigh (snd s)) in
  k * (- (1 / 2) * (flux s u * dv + du * flux s v) + penalty S (snd s) * area (snd s) * du * v (ic_const (fst s))).
Lemma row1 S c p u : row_form c (ip_matrix_1 S c p) u = scale S p * (1 / 2 * flux (c, p) u - penalty S p * area p * u (ic_const c)).
Proof.
  unfold row_form. rewrite sumn_last. unfold ip_matrix_1 at 2. rewrite Nat.ltb_irrefl.
  rewrite (sumn_ext _ _ (fun i => (scale S p * (1 / 2)) * (u (ic_dof c i) * ip_flux p i))).
  2:{ intros i Hi. unfold ip_matrix_1. rewrite (proj2 (Nat.ltb_lt i (ic_n c)) Hi). ring. }
  rewrite sumn_scal, suml_opp. unfold flux, ip_flux, area, ic_const. cbn [fst snd].
  rewrite (sumn_ext _ _ (fun i => suml (pc_points p) (fun q => fp_JxW q * (u (ic_dof c i) * fp_dn q i)))).
  2:{ intros i _. rewrite <- suml_scal. apply suml_ext. intros q _. ring. }
  rewrite <- suml_sumn. rewrite (suml_ext _ _ (fun q => fp_JxW q * sumn (ic_n c) (fun i => u (ic_dof c i) * fp_dn q i))) by (intros; apply sumn_scal).
  ring.
Qed.
Lemma row2 S c p u : row_form c (ip_matrix_2 S c p) u = scale S p * (1 / 2 * flux (c, p) u).
Proof.
  pose proof (row1 S c p u) as E. unfold row_form in *. rewrite sumn_last in *. unfold ip_matrix_2 at 2. unfold ip_matrix_1 at 2 in E. rewrite Nat.ltb_irrefl in *.
  rewrite (sumn_ext _ _ (fun i => ip_matrix_1 S c p i * u (ic_dof c i))).
  2:{ intros i Hi. unfold ip_matrix_1, ip_matrix_2. rewrite (proj2 (Nat.ltb_lt i (ic_n c)) Hi). reflexivity. }
  rewrite suml_opp in E. fold (area p) in E. fold (ic_const c) in E. lra.
Qed.
Lemma fold_form S c u v l : forall M, local_form c (fold_left (add_face S c) l M) u v =
  local_form c M u v + suml (filter (kind_is Inner) l) (fun p => - u (ic_const c) * row_form c (ip_matrix_1 S c p) v - row_form c (ip_matrix_2 S c p) u * v (ic_const c)) +
  suml (filter (kind_is Open) l) (fun p => nitsche_form (scale S p) (degsq S / pc_ext_own p) (c, p) u v).
Proof.
  induction l as [|p l IH]; intros M; [cbn; lra|]. cbn [fold_left]. rewrite IH. unfold add_face. cbn [filter].
  change (kind_is Inner p) with (match pc_kind p with Inner => true | _ => false end). change (kind_is Open p) with (match pc_kind p with Open => true | _ => false end). destruct (pc_kind p) eqn:K; cbn [suml].
  - cbv zeta. rewrite local_col, local_row. lra.
  - rewrite local_plus, nitsche_local. lra.
  - lra.
Qed.
Lemma form_app l m u v : form (l ++ m) u v = form l u v + form m u v.
Proof. apply suml_app. Qed.
Lemma form_assemble S cells u v : form (assemble S cells) u v =
  suml cells (fun c => stiffness S c u v) + suml (sides Inner cells) (fun s => side_form S s u v) +
  suml (sides Open cells) (fun s => nitsche_form (scale S (snd s)) (degsq S / pc_ext_own (snd s)) s u v).
Proof.
  unfold form, assemble, sides. rewrite !suml_flat, <- !suml_plus. apply suml_ext. intros c _. rewrite !suml_map. cbn [snd].
  rewrite suml_app, suml_flat.
  assert (E : suml (cell_entries S c) (fun e => snd e * u (fst (fst e)) * v (snd (fst e))) = local_form c (cell_matrix S c) u v).
  { unfold cell_entries. rewrite suml_flat, sumn_seq. unfold local_form. apply sumn_ext. intros i _. rewrite suml_map, sumn_seq. reflexivity. }
  rewrite E. unfold cell_matrix. rewrite fold_form, laplace_form.
  assert (G : suml (ic_pieces c) (fun p => suml (face_entries S c p) (fun e => snd e * u (fst (fst e)) * v (snd (fst e)))) =
     suml (filter (kind_is Inner) (ic_pieces c)) (fun p => u (pc_neigh p) * row_form c (ip_matrix_1 S c p) v + row_form c (ip_matrix_2 S c p) u * v (pc_neigh p))).
  { induction (ic_pieces c) as [|p l IH]; [reflexivity|]. cbn [suml filter]. rewrite IH. unfold face_entries at 1. change (kind_is Inner p) with (match pc_kind p with Inner => true | _ => false end). destruct (pc_kind p); cbn [suml]; [|ring|ring].
    rewrite suml_app, !suml_map, !sumn_seq. cbn [fst snd]. unfold row_form. rewrite <- sumn_scal, <- sumn_scal_r. f_equal. f_equal; apply sumn_ext; intros; ring. }
  rewrite G.
  assert (H : suml (filter (kind_is Inner) (ic_pieces c)) (fun p => side_form S (c, p) u v) =
    suml (filter (kind_is Inner) (ic_pieces c)) (fun p => u (pc_neigh p) * row_form c (ip_matrix_1 S c p) v + row_form c (ip_matrix_2 S c p) u * v (pc_neigh p)) +
    suml (filter (kind_is Inner) (ic_pieces c)) (fun p => - u (ic_const c) * row_form c (ip_matrix_1 S c p) v - row_form c (ip_matrix_2 S c p) u * v (ic_const c))).
  { rewrite <- suml_plus. apply suml_ext. intros p _. rewrite row1, row2. unfold side_form. cbv zeta. cbn [fst snd]. ring. }
  rewrite H. lra.
Qed.
Lemma penalty_opposite S a b : opposite a b -> penalty S (snd a) = penalty S (snd b).
Proof.
  intros (_ & _ & _ & _ & _ & E1 & E2 & F1 & F2 & NB). unfold penalty, penalty1, penalty2. rewrite E1, E2, <- F1, <- F2.
  destruct (pc_fine (snd a)), (pc_fine (snd b)); try ring. exfalso; auto.
Qed.
Lemma pair_form S a b u v : opposite a b -> used_density S (snd a) = used_density S (snd b) ->
  side_form S a u v + side_form S b u v = interior_penalty (scale S (snd a)) (penalty S (snd a)) a b u v.
Proof.
  intros O D. pose proof (penalty_opposite S a b O) as P. destruct O as (_ & _ & N1 & N2 & A & _).
  unfold side_form, interior_penalty, average, jump. cbv zeta. rewrite N1, N2, <- P, <- A. replace (scale S (snd b)) with (scale S (snd a)) by (unfold scale; rewrite D; reflexivity). ring.
Qed.
Theorem C99_form : forall S cells faces, paired cells faces -> same_density S faces ->
  forall u v, form (assemble S cells) u v = discretization S cells faces u v.
Proof.
  intros S cells faces [P O] D u v. rewrite form_assemble. unfold discretization. f_equal. f_equal. rewrite (suml_perm _ _ _ P), suml_flat.
  apply suml_ext. intros [a b] H. cbn [suml fst snd]. unfold same_density in D. rewrite Forall_forall in O, D. specialize (O _ H). specialize (D _ H). cbn in O, D.
  rewrite <- (pair_form S a b u v O D). ring.
Qed.
Print Assumptions C99_form.
(** The penalties, for elements of degree k+1 in velocity (k the degree handed to the penalty) and cells of extent h orthogonal to the face:
    k (k+1) times the mean of 1/h over the two sides, where a coarse side counts double (its neighbor has half the extent); and k (k+1) / h
    on open boundaries *)
Theorem C99_penalty : forall S p, let k := INR (ps_degree S) in
  (pc_fine p = false -> pc_coarse p = false -> penalty S p = k * (k + 1) * (1 / 2) * (/ pc_ext_own p + / pc_ext_neigh p)) /\
  (pc_fine p = true -> penalty S p = k * (k + 1) * (1 / 2) * (2 / pc_ext_own p + / pc_ext_neigh p)) /\
  (pc_fine p = false -> pc_coarse p = true -> penalty S p = k * (k + 1) * (1 / 2) * (/ pc_ext_own p + 2 / pc_ext_neigh p)) /\
  degsq S / pc_ext_own p = k * (k + 1) / pc_ext_own p.
Proof.
  intros S p k. assert (E : degsq S = k * (k + 1)) by (unfold degsq, k; rewrite mult_INR, plus_INR; reflexivity).
  unfold penalty, penalty1, penalty2. rewrite E. refine (conj _ (conj _ (conj _ eq_refl))).
  - intros -> ->. unfold Rdiv. ring.
  - intros ->. unfold Rdiv. ring.
  - intros -> ->. unfold Rdiv. ring.
Qed.
Print Assumptions C99_penalty.
(** the densities agree: always for constant density and for projections; otherwise if the fields are evaluated at the same points *)
Theorem C99_densities : forall S a b, opposite a b ->
  ps_diff S = 0 \/ ps_projection S = true \/
  (pc_fine (snd a) = false /\ pc_fine (snd b) = false /\ pc_own (snd a) = pc_own (snd b)) \/
  (pc_fine (snd a) = true /\ pc_child_owned (snd a) = true /\ pc_child (snd a) = pc_own (snd b)) ->
  used_density S (snd a) = used_density S (snd b).
Proof.
  intros S a b O H. destruct O as (K1 & K2 & _ & _ & _ & _ & _ & _ & _ & NB). unfold used_density, face_density. rewrite K1, K2.
  destruct (Req_EM_T (ps_diff S) 0) as [Z|Z].
  { destruct (pc_fine (snd a)), (pc_child_owned (snd a)), (pc_fine (snd b)), (pc_child_owned (snd b)); reflexivity. }
  destruct H as [H|[H|[(F1 & F2 & E)|(F & C & E)]]].
  - contradiction.
  - rewrite H. destruct (pc_fine (snd a)), (pc_child_owned (snd a)), (pc_fine (snd b)), (pc_child_owned (snd b)); reflexivity.
  - rewrite F1, F2, E. reflexivity.
  - rewrite F, C, E. destruct (pc_fine (snd b)) eqn:F'; [exfalso; auto|reflexivity].
Qed.

(** the coefficients: one over density and weight of the time derivative, in the cells and on the faces; in stationary computations
    one in the cells, but one over the density on the faces, which is the same only for density one *)
Theorem C99_coefficients : forall S q p,
  (ps_stationary S = false -> ps_diff S = 0 -> ps_variable S = false \/ ps_projection S = true ->
     1 / rho_weight S q = 1 / (ps_density S * ps_weight S) /\ scale S p = 1 / (ps_density S * ps_weight S)) /\
  (ps_stationary S = false -> ps_projection S = true ->
     1 / rho_weight S q = 1 / (Rmin (ps_density S) (ps_density S + ps_diff S) * ps_weight S) /\
     scale S p = 1 / (Rmin (ps_density S) (ps_density S + ps_diff S) * ps_weight S)) /\
  (ps_stationary S = false -> ps_variable S = true -> ps_projection S = false -> ps_diff S <> 0 ->
     1 / rho_weight S q = 1 / (lp_density q * ps_weight S) /\
     (pc_fine p = false -> scale S p = 1 / (pc_own p * ps_weight S))) /\
  (ps_stationary S = true -> 1 / rho_weight S q = 1 /\ (ps_diff S = 0 -> scale S p = 1 / ps_density S)).
Proof.
  intros S q p. unfold rho_weight, scale, time_weight, used_density, face_density.
  refine (conj _ (conj _ (conj _ _))).
  - intros -> -> H. assert (Rmin (ps_density S) (ps_density S + 0) = ps_density S) as -> by (rewrite Rplus_0_r; apply Rmin_left; lra).
    destruct (Req_EM_T 0 0); [|lra]. assert (ps_variable S && negb (ps_projection S) = false) as -> by (destruct H as [-> | ->]; [reflexivity|apply andb_false_r]).
    split; [reflexivity|]. destruct (pc_kind p), (pc_fine p), (pc_child_owned p); reflexivity.
  - intros -> ->. rewrite andb_false_r. split; [reflexivity|].
    destruct (Req_EM_T (ps_diff S) 0) as [->|].
    + rewrite Rplus_0_r, Rmin_left by lra. destruct (pc_kind p), (pc_fine p), (pc_child_owned p); reflexivity.
    + destruct (pc_kind p), (pc_fine p), (pc_child_owned p); reflexivity.
  - intros -> -> -> H. cbn. split; [reflexivity|]. intros ->. destruct (Req_EM_T (ps_diff S) 0); [contradiction|]. destruct (pc_kind p); reflexivity.
  - intros ->. split; [field|]. intros ->. destruct (Req_EM_T 0 0); [|lra].
    rewrite Rmult_1_r. destruct (pc_kind p), (pc_fine p), (pc_child_owned p); reflexivity.
Qed.
Print Assumptions C99_coefficients.
Theorem C99_symmetric : forall S cells faces, paired cells faces -> same_density S faces ->
  forall u v, form (assemble S cells) u v = form (assemble S cells) v u.
Proof.
  intros S cells faces P D u v. rewrite 2 (C99_form S cells faces P D). unfold discretization. f_equal; [f_equal|]; apply suml_ext.
  - intros c _. unfold stiffness. apply suml_ext. intros q _. f_equal. apply sumn_ext. intros d _. ring.
  - intros ab _. unfold interior_penalty. ring.
  - intros s _. unfold nitsche_form. f_equal. apply suml_ext. intros q _. ring.
Qed.

(** ** Constants *)
(** contract of FE_Q_DG0: the continuous functions sum up to one, the last function is one *)
Definition q_dg0 (S : psetup) (c : ipcell) : Prop :=
  (forall q d, In q (ic_points c) -> lp_grad q (ic_n c) d = 0 /\ sumn (ic_n c) (fun i => lp_grad q i d) = 0) /\
  (forall p q, In p (ic_pieces c) -> In q (pc_points p) -> fp_dn q (ic_n c) = 0 /\ sumn (ic_n c) (fp_dn q) = 0 /\ fp_val q (ic_n c) = 1 /\ sumn (ic_n c) (fp_val q) = 1).
(** without open boundary the matrix annihilates the functions which are a (in the continuous part) plus b (in the constants): all representations of a constant *)
Theorem C99_constants : forall S cells faces (a b : R) (u v : nat -> R), paired cells faces -> same_density S faces -> Forall (q_dg0 S) cells -> sides Open cells = [] ->
  (forall c i, In c cells -> (i < ic_n c)%nat -> u (ic_dof c i) = a) -> (forall c, In c cells -> u (ic_const c) = b) ->
  form (assemble S cells) u v = 0 /\ form (assemble S cells) v u = 0.
Proof.
  intros S cells faces a b u v P D Q NO HA HB. rewrite (C99_symmetric S cells faces P D v u).
  assert (E : form (assemble S cells) u v = 0); [|split; exact E]. rewrite (C99_form S cells faces P D). unfold discretization. rewrite NO. cbn [suml].
  rewrite Forall_forall in Q.
  assert (E1 : suml cells (fun c => stiffness S c u v) = 0).
  { apply suml_zero. intros c Hc. unfold stiffness. apply suml_zero. intros q Hq. rewrite sumn_zero; [ring|]. intros d _.
    assert (G : grad_at c q d u = 0); [|rewrite G; ring]. unfold grad_at. destruct (proj1 (Q c Hc) q d Hq) as [G1 G2]. rewrite sumn_last, G1.
    rewrite (sumn_ext _ _ (fun i => a * lp_grad q i d)) by (intros i Hi; rewrite (HA c i Hc Hi); reflexivity). rewrite sumn_scal, G2. ring. }
  assert (E2 : suml faces (fun ab => interior_penalty (scale S (snd (fst ab))) (penalty S (snd (fst ab))) (fst ab) (snd ab) u v) = 0).
  { apply suml_zero. intros [s t] H.
    assert (I : forall x, In x [s; t] -> In (fst x) cells /\ In (snd x) (ic_pieces (fst x))).
    { intros x Hx. assert (J : In x (sides Inner cells)).
      { destruct P as [P _]. apply (Permutation_in x (Permutation_sym P)). apply in_flat_map. exists (s, t). split; [exact H|exact Hx]. }
      unfold sides in J. apply in_flat_map in J. destruct J as (c & Hc & J). apply in_map_iff in J. destruct J as (p & <- & J). apply filter_In in J. cbn. tauto. }
    assert (F : forall x, In x [s; t] -> flux x u = 0).
    { intros x Hx. destruct (I x Hx) as [Hc Hp]. unfold flux. apply suml_zero. intros q Hq.
      rewrite (sumn_ext _ _ (fun i => a * fp_dn q i)) by (intros i Hi; rewrite (HA _ i Hc Hi); reflexivity). rewrite sumn_scal.
      destruct (proj2 (Q _ Hc) _ q Hp Hq) as (_ & Z & _). rewrite Z. ring. }
    unfold interior_penalty, average, jump. cbn [fst snd]. rewrite (F s), (F t) by (cbn; auto).
    rewrite (HB (fst s)), (HB (fst t)) by (apply I; cbn; auto). ring. }
  lra.
Qed.
Print Assumptions C99_constants.

(** ** Definiteness *)
(** trace inequality on a cell: normal derivatives on the faces against the gradient inside, with the constants of the code *)
Definition trace_bound (S : psetup) (u : nat -> R) (c : ipcell) : Prop :=
  suml (filter (fun p => negb (kind_is Wall p)) (ic_pieces c)) (fun p =>
    scale S p * suml (pc_points p) (fun q => fp_JxW q * (deriv (c, p) q u * deriv (c, p) q u) / (2 * (degsq S / pc_ext_own p * (if kind_is Inner p && pc_fine p then 2 else 1))))) <= stiffness S c u u.
Definition admissible (S : psetup) (c : ipcell) : Prop :=
  forall p, In p (ic_pieces c) -> 0 < scale S p /\ 0 < pc_ext_own p /\ 0 < pc_ext_neigh p /\ (forall q, In q (pc_points p) -> 0 <= fp_JxW q).
Lemma degsq_pos S : (1 <= ps_degree S)%nat -> 0 < degsq S.
Proof. intros H. unfold degsq. change 0 with (INR 0). apply lt_INR. nia. Qed.
Lemma young x y p : 0 < p -> - (x * x / (2 * p)) <= - x * y + p / 2 * (y * y).
Proof.
  intros Hp. assert (0 <= (x - p * y) * (x - p * y) / (2 * p)) as H.
  { apply Rmult_le_pos; [apply Rle_0_sqr|]. left. apply Rinv_0_lt_compat. lra. }
  replace ((x - p * y) * (x - p * y) / (2 * p)) with (x * x / (2 * p) - x * y + p / 2 * (y * y)) in H by (field; lra). lra.
Qed.
Theorem C99_semidefinite : forall S cells faces u, paired cells faces -> same_density S faces -> (1 <= ps_degree S)%nat ->
  Forall (q_dg0 S) cells -> Forall (admissible S) cells -> Forall (trace_bound S u) cells -> 0 <= form (assemble S cells) u u.
Proof.
  intros S cells faces u P D Hk Q A T. rewrite (C99_form S cells faces P D). pose proof (degsq_pos S Hk) as K.
  rewrite Forall_forall in Q, A.
  (* lower bound of one side *)
  set (low := fun s : side => scale S (snd s) * suml (pc_points (snd s)) (fun q => fp_JxW q * (deriv s q u * deriv s q u) / (2 * (degsq S / pc_ext_own (snd s) * (if kind_is Inner (snd s) && pc_fine (snd s) then 2 else 1))))).
  assert (IN : forall k s, In s (sides k cells) -> In (fst s) cells /\ In (snd s) (ic_pieces (fst s)) /\ kind_is k (snd s) = true).
  { intros k s J. unfold sides in J. apply in_flat_map in J. destruct J as (c & Hc & J). apply in_map_iff in J. destruct J as (p & <- & J). apply filter_In in J. cbn. tauto. }
  assert (FL : forall s, In (fst s) cells -> In (snd s) (ic_pieces (fst s)) -> flux s u = suml (pc_points (snd s)) (fun q => fp_JxW q * deriv s q u)).
  { intros s Hc Hp. unfold flux. apply suml_ext. intros q Hq. f_equal. unfold deriv. rewrite sumn_last. destruct (proj2 (Q _ Hc) _ q Hp Hq) as (Z & _). rewrite Z. ring. }
  assert (SUM : suml (sides Inner cells) low + suml (sides Open cells) low <= suml cells (fun c => stiffness S c u u)).
  { clear P D FL IN A Q. unfold sides. induction cells as [|c cells IH]; [cbn; lra|]. inversion T as [|? ? T1 T2]; subst. specialize (IH T2). cbn [flat_map suml]. rewrite !suml_app.
    assert (E : suml (map (fun p => (c, p)) (filter (kind_is Inner) (ic_pieces c))) low + suml (map (fun p => (c, p)) (filter (kind_is Open) (ic_pieces c))) low <= stiffness S c u u).
    { eapply Rle_trans; [|exact T1]. right. rewrite !suml_map. induction (ic_pieces c) as [|p l IHl]; [cbn; ring|]. cbn [filter].
      change (kind_is Inner p) with (match pc_kind p with Inner => true | _ => false end). change (kind_is Open p) with (match pc_kind p with Open => true | _ => false end). change (kind_is Wall p) with (match pc_kind p with Wall => true | _ => false end).
      destruct (pc_kind p) eqn:Kp; cbn [suml negb]; rewrite <- IHl; unfold low; cbn [fst snd]; unfold kind_is; rewrite ?Kp; cbn; ring. }
    lra. }
  assert (FACES : - suml (sides Inner cells) low <= suml faces (fun ab => interior_penalty (scale S (snd (fst ab))) (penalty S (snd (fst ab))) (fst ab) (snd ab) u u)).
  { destruct P as [P O]. assert (II : forall s, In s (flat_map (fun ab => [fst ab; snd ab]) faces) -> In s (sides Inner cells)) by (intros s Hs; apply (Permutation_in s (Permutation_sym P)); exact Hs).
    rewrite (suml_perm _ _ _ P). clear P. induction faces as [|[s t] faces IH]; [cbn; lra|].
    inversion O as [|? ? O1 O2]; subst. inversion D as [|? ? D1 D2]; subst. cbn [fst snd] in O1, D1. specialize (IH O2 D2 ltac:(intros x Hx; apply II; cbn; auto)).
    cbn [flat_map suml fst snd app].
    assert (E : - (low s + low t) <= interior_penalty (scale S (snd s)) (penalty S (snd s)) s t u u); [|lra].
    destruct (IN Inner s (II s ltac:(cbn; auto))) as (Hs & Ps & Ks). destruct (IN Inner t (II t ltac:(cbn; auto))) as (Ht & Pt & Kt).
    destruct (A _ Hs _ Ps) as (SC & X1 & X2 & W1). destruct (A _ Ht _ Pt) as (SC' & X1' & X2' & W1').
    unfold interior_penalty, average. rewrite (FL s Hs Ps), (FL t Ht Pt).
    assert (Esc : scale S (snd t) = scale S (snd s)) by (unfold scale; rewrite D1; reflexivity).
    pose proof O1 as (_ & _ & _ & _ & EA & EX1 & EX2 & F1 & F2 & NB).
    set (p1 := penalty1 S (snd s)). set (p2 := penalty1 S (snd t)).
    assert (P1 : 0 < p1) by (unfold p1, penalty1; apply Rmult_lt_0_compat; [apply Rdiv_lt_0_compat; assumption|destruct (pc_fine (snd s)); lra]).
    assert (P2 : 0 < p2) by (unfold p2, penalty1; apply Rmult_lt_0_compat; [apply Rdiv_lt_0_compat; assumption|destruct (pc_fine (snd t)); lra]).
    assert (EP : penalty S (snd s) = 1 / 2 * (p1 + p2)).
    { unfold penalty, p1, p2. f_equal. f_equal. unfold penalty1, penalty2. rewrite EX2, <- F2. destruct (pc_fine (snd s)) eqn:Fs, (pc_fine (snd t)) eqn:Ft; try ring. exfalso; auto. }
    assert (L1 : low s = scale S (snd s) * suml (pc_points (snd s)) (fun q => fp_JxW q * (deriv s q u * deriv s q u) / (2 * p1))) by (unfold low; rewrite Ks; reflexivity).
    assert (L2 : low t = scale S (snd s) * suml (pc_points (snd t)) (fun q => fp_JxW q * (deriv t q u * deriv t q u) / (2 * p2))) by (unfold low; rewrite Kt, Esc; reflexivity).
    rewrite EP, L1, L2. set (J := jump s t u).
    assert (Y1 : - suml (pc_points (snd s)) (fun q => fp_JxW q * (deriv s q u * deriv s q u) / (2 * p1)) <= - suml (pc_points (snd s)) (fun q => fp_JxW q * deriv s q u) * J + p1 / 2 * area (snd s) * (J * J)).
    { unfold area. clear - W1 P1. induction (pc_points (snd s)) as [|q l IHl]; [cbn; lra|]. cbn [suml]. specialize (IHl ltac:(intros; apply W1; cbn; auto)). pose proof (W1 q ltac:(cbn; auto)) as W.
      pose proof (Rmult_le_compat_l _ _ _ W (young (deriv s q u) J p1 P1)) as Y.
      replace (fp_JxW q * (deriv s q u * deriv s q u) / (2 * p1)) with (fp_JxW q * (deriv s q u * deriv s q u / (2 * p1))) by (unfold Rdiv; ring). lra. }
    assert (Y2 : - suml (pc_points (snd t)) (fun q => fp_JxW q * (deriv t q u * deriv t q u) / (2 * p2)) <= suml (pc_points (snd t)) (fun q => fp_JxW q * deriv t q u) * J + p2 / 2 * area (snd t) * (J * J)).
    { unfold area. clear - W1' P2. induction (pc_points (snd t)) as [|q l IHl]; [cbn; lra|]. cbn [suml]. specialize (IHl ltac:(intros; apply W1'; cbn; auto)). pose proof (W1' q ltac:(cbn; auto)) as W.
      pose proof (Rmult_le_compat_l _ _ _ W (young (deriv t q u) (- J) p2 P2)) as Y.
      replace (fp_JxW q * (deriv t q u * deriv t q u) / (2 * p2)) with (fp_JxW q * (deriv t q u * deriv t q u / (2 * p2))) by (unfold Rdiv; ring). lra. }
    rewrite <- EA in Y2. set (a1 := suml (pc_points (snd s)) (fun q => fp_JxW q * deriv s q u)) in *. set (a2 := suml (pc_points (snd t)) (fun q => fp_JxW q * deriv t q u)) in *.
    set (b1 := suml (pc_points (snd s)) _) in *. set (b2 := suml (pc_points (snd t)) _) in *.
    apply Rle_trans with (scale S (snd s) * (- b1 - b2)); [right; ring|]. apply Rle_trans with (scale S (snd s) * ((- a1 * J + p1 / 2 * area (snd s) * (J * J)) + (a2 * J + p2 / 2 * area (snd s) * (J * J)))); [|right; field].
    apply Rmult_le_compat_l; lra. }
  assert (OPEN : - suml (sides Open cells) low <= suml (sides Open cells) (fun s => nitsche_form (scale S (snd s)) (degsq S / pc_ext_own (snd s)) s u u)).
  { assert (E : forall s, In s (sides Open cells) -> - low s <= nitsche_form (scale S (snd s)) (degsq S / pc_ext_own (snd s)) s u u).
    { intros s Hs. destruct (IN Open s Hs) as (Hc & Hp & Ko). destruct (A _ Hc _ Hp) as (SC & X1 & _ & W1). unfold low, nitsche_form.
      replace (kind_is Inner (snd s) && pc_fine (snd s)) with false by (unfold kind_is in *; destruct (pc_kind (snd s)); try discriminate; reflexivity).
      set (pen := degsq S / pc_ext_own (snd s)). assert (PP : 0 < pen) by (apply Rdiv_lt_0_compat; assumption).
      rewrite Ropp_mult_distr_r. apply Rmult_le_compat_l; [lra|]. rewrite Rmult_1_r.
      clear - W1 PP. induction (pc_points (snd s)) as [|q l IHl]; [cbn; lra|]. cbn [suml]. specialize (IHl ltac:(intros; apply W1; cbn; auto)). pose proof (W1 q ltac:(cbn; auto)) as W.
      pose proof (Rmult_le_compat_l _ _ _ W (young (deriv s q u) (2 * value s q u) pen PP)) as Y.
      replace (fp_JxW q * (deriv s q u * deriv s q u) / (2 * pen)) with (fp_JxW q * (deriv s q u * deriv s q u / (2 * pen))) by (unfold Rdiv; ring). lra. }
    clear - E. induction (sides Open cells) as [|s l IH]; [cbn; lra|]. cbn [suml]. pose proof (E s ltac:(cbn; auto)). specialize (IH ltac:(intros; apply E; cbn; auto)). lra. }
  unfold discretization. lra.
Qed.
Print Assumptions C99_semidefinite.

(** ** Sparsity *)
Theorem C99_pattern : forall S cells r c x, In (r, c, x) (assemble S cells) -> In (r, c) (pattern cells).
Proof.
  intros S cells r c x H. unfold assemble in H. apply in_flat_map in H. destruct H as (k & Hk & H). unfold pattern. apply in_flat_map. exists k. split; [exact Hk|]. cbv zeta.
  apply in_app_or in H. destruct H as [H|H].
  - apply in_flat_map in H. destruct H as (p & Hp & H). apply in_or_app. right. apply in_flat_map. exists p. split; [exact Hp|]. unfold face_entries in H. destruct (pc_kind p); [|destruct H|destruct H].
    apply in_app_or in H. apply in_or_app. destruct H as [H|H]; apply in_map_iff in H; destruct H as (i & E & Hi); injection E as <- <- <-; [left|right]; apply in_prod.
    + cbn; auto. + apply in_map; exact Hi. + apply in_map; exact Hi. + cbn; auto.
  - apply in_or_app. left. unfold cell_entries in H. apply in_flat_map in H. destruct H as (i & Hi & H). apply in_map_iff in H. destruct H as (j & E & Hj). injection E as <- <- <-. apply in_prod; apply in_map; assumption.
Qed.

(** ** Scales *)
(** in time dependent runs with one density, cells and faces have the same coefficient 1 / (density * weight) *)
Theorem C99_scales : forall S p q, ps_stationary S = false -> ps_diff S = 0 -> (ps_variable S = true -> lp_density q = ps_density S) ->
  lp_JxW q / rho_weight S q = lp_JxW q * scale S p.
Proof.
  intros S p q HS HD HV. unfold rho_weight, scale, used_density, face_density, time_weight. rewrite HS. destruct (Req_EM_T (ps_diff S) 0) as [_|N]; [|contradiction].
  replace (if ps_variable S && negb (ps_projection S) then lp_density q else Rmin (ps_density S) (ps_density S + ps_diff S)) with (ps_density S).
  - destruct (pc_kind p); [destruct (pc_fine p), (pc_child_owned p)| |]; unfold Rdiv; ring.
  - rewrite HD, Rplus_0_r, Rmin_left by lra. destruct (ps_variable S); cbn; [|reflexivity]. rewrite HV by reflexivity. destruct (ps_projection S); reflexivity.
Qed.

(** two cells of length one on a line with linear elements: unknowns 0, 1, 2 and the constants 3, 4 *)
Definition line_cell (k : nat) (own child : R) (fine coarse child_owned : bool) : ipcell :=
  let sgn := match k with O => 1 | _ => -1 end in
  MkCell 2 (fun i => match i with 2%nat => (3 + k)%nat | _ => (k + i)%nat end)
    [MkL 1 (fun i _ => match i with 0%nat => -1 | 1%nat => 1 | _ => 0 end) own]
    [MkPiece Inner fine coarse (4 - k) [MkF 1 (fun i => match k, i with O, 1%nat => 1 | S _, O => 1 | _, 2%nat => 1 | _, _ => 0 end) (fun i => match i with 0%nat => - sgn | 1%nat => sgn | _ => 0 end)] 1 1 own child child_owned;
     MkPiece Wall false false 0 [] 1 1 own child true].
Definition line_faces (l : list ipcell) : list (side * side) :=
  match l with [c; d] => [((c, hd (MkPiece Wall false false 0 [] 1 1 1 1 true) (ic_pieces c)), (d, hd (MkPiece Wall false false 0 [] 1 1 1 1 true) (ic_pieces d)))] | _ => [] end.
Definition flow_setup (rho diff : R) (stationary variable : bool) : psetup := MkSetup rho diff false stationary variable 1 1 1.
Definition plain_line : list ipcell := [line_cell 0 1 1 false false true; line_cell 1 1 1 false false true].
Lemma plain_paired : paired plain_line (line_faces plain_line).
Proof.
  split; [apply Permutation_refl|]. repeat constructor; cbn; auto. discriminate.
Qed.
(** Violated in stationary problems: the cells have coefficient 1, the faces 1 / density.  For small densities the matrix is indefinite although
    the trace inequality holds for the coefficient of the cells *)
Theorem C99_violation_stationary : let S := flow_setup (1 / 8) 0 true false in
  paired plain_line (line_faces plain_line) /\ same_density S (line_faces plain_line) /\ Forall (q_dg0 S) plain_line /\ Forall (admissible S) plain_line /\
  exists u, form (assemble S plain_line) u u < 0.
Proof.
  cbv zeta. assert (U : forall p, used_density (flow_setup (1 / 8) 0 true false) p = 1 / 8).
  { intros p. unfold used_density, face_density. cbn. destruct (Req_EM_T 0 0) as [_|N]; [|contradiction]. destruct (pc_kind p); [destruct (pc_fine p), (pc_child_owned p)| |]; reflexivity. }
  assert (SD : same_density (flow_setup (1 / 8) 0 true false) (line_faces plain_line)) by (repeat constructor; rewrite !U; reflexivity).
  refine (conj plain_paired (conj SD (conj _ (conj _ _)))).
  - repeat constructor; cbn in *; repeat match goal with H : _ \/ _ |- _ => destruct H as [<-|H] | H : False |- _ => destruct H end; cbn in *;
      repeat match goal with H : _ \/ _ |- _ => destruct H as [<-|H] | H : False |- _ => destruct H end; cbn; try lra.
  - assert (SC : forall p, 0 < scale (flow_setup (1 / 8) 0 true false) p) by (intros p; unfold scale; rewrite U; cbn; lra).
    apply Forall_forall. intros c Hc p Hp. split; [apply SC|]. cbn in Hc. destruct Hc as [<-|[<-|[]]]; cbn in Hp; destruct Hp as [<-|[<-|[]]]; (refine (conj _ (conj _ _)); [cbn; lra|cbn; lra|]);
      intros q Hq; cbn in Hq; repeat match goal with H : _ \/ _ |- _ => destruct H as [<-|H] | H : False |- _ => destruct H end; cbn; lra.
  - exists (fun i => match i with 0%nat => -1 | 2%nat => 1 | 3%nat => 1 / 2 | _ => 0 end).
    rewrite (C99_form _ _ _ plain_paired SD). unfold discretization. cbn [suml line_faces plain_line fst snd sides flat_map]. unfold interior_penalty, scale. rewrite U.
    unfold stiffness, average, jump, flux, grad_at, area, penalty, penalty1, penalty2, degsq, rho_weight. cbn. lra.
Qed.
(** Violated in parallel: if the child of a refined neighbor belongs to another process, the two sides use different densities, and the matrix is not symmetric *)
Theorem C99_violation_parallel : forall rho diff d1 d2, diff <> 0 -> 0 < d1 -> 0 < d2 -> d1 <> d2 ->
  let S := flow_setup rho diff false true in let cells := [line_cell 0 d1 d2 true false false; line_cell 1 d2 d2 false true true] in
  paired cells (line_faces cells) /\ exists u v, form (assemble S cells) u v <> form (assemble S cells) v u.
Proof.
  intros rho diff d1 d2 HD H1 H2 HN S cells. split.
  - split; [apply Permutation_refl|]. repeat constructor; cbn; auto. discriminate.
  - exists (fun i => match i with 3%nat => 1 | _ => 0 end), (fun i => match i with 4%nat => 1 | _ => 0 end).
    rewrite !form_assemble. unfold stiffness, side_form, flux, grad_at, area, penalty, penalty1, penalty2, degsq, rho_weight, scale, used_density, face_density. cbn.
    destruct (Req_EM_T diff 0) as [Z|_]; [contradiction|]. cbn. intros E.
    assert (I : / d1 = / d2); [|apply HN; rewrite <- (Rinv_inv d1), <- (Rinv_inv d2), I; reflexivity].
    unfold Rdiv in E. rewrite !Rmult_1_r in E. lra.
Qed.
Print Assumptions C99_violation_parallel.
(** ** The hypotheses are met, with a positive result *)
Example C99_nonvacuous : let S := flow_setup 1 0 false false in
  paired plain_line (line_faces plain_line) /\ same_density S (line_faces plain_line) /\ Forall (q_dg0 S) plain_line /\ Forall (admissible S) plain_line /\
  (forall u, Forall (trace_bound S u) plain_line) /\ exists u, 0 < form (assemble S plain_line) u u.
Proof.
  cbv zeta. assert (U : forall p, used_density (flow_setup 1 0 false false) p = 1).
  { intros p. unfold used_density, face_density. cbn. destruct (Req_EM_T 0 0) as [_|N]; [|contradiction]. destruct (pc_kind p); [destruct (pc_fine p), (pc_child_owned p)| |]; reflexivity. }
  assert (SD : same_density (flow_setup 1 0 false false) (line_faces plain_line)) by (repeat constructor; rewrite !U; reflexivity).
  refine (conj plain_paired (conj SD (conj _ (conj _ (conj _ _))))).
  - repeat constructor; cbn in *; repeat match goal with H : _ \/ _ |- _ => destruct H as [<-|H] | H : False |- _ => destruct H end; cbn in *;
      repeat match goal with H : _ \/ _ |- _ => destruct H as [<-|H] | H : False |- _ => destruct H end; cbn; try lra.
  - assert (SC : forall p, 0 < scale (flow_setup 1 0 false false) p) by (intros p; unfold scale; rewrite U; cbn; lra).
    apply Forall_forall. intros c Hc p Hp. split; [apply SC|]. cbn in Hc. destruct Hc as [<-|[<-|[]]]; cbn in Hp; destruct Hp as [<-|[<-|[]]]; (refine (conj _ (conj _ _)); [cbn; lra|cbn; lra|]);
      intros q Hq; cbn in Hq; repeat match goal with H : _ \/ _ |- _ => destruct H as [<-|H] | H : False |- _ => destruct H end; cbn; lra.
  - assert (SC : forall p, scale (flow_setup 1 0 false false) p = 1) by (intros p; unfold scale; rewrite U; cbn; lra).
    assert (MM : Rmin 1 (1 + 0) = 1) by (rewrite Rplus_0_r; apply Rmin_left; lra).
    intros u. apply Forall_forall. intros c Hc. cbn in Hc. destruct Hc as [<-|[<-|[]]]; unfold trace_bound, stiffness, deriv, grad_at, degsq, rho_weight; cbn; rewrite !SC, MM; cbn.
    + set (a := u 0%nat). set (b := u 1%nat). pose proof (Rle_0_sqr (b - a)) as Z. unfold Rsqr in Z. nra.
    + set (a := u 1%nat). set (b := u 2%nat). pose proof (Rle_0_sqr (b - a)) as Z. unfold Rsqr in Z. nra.
  - exists (fun i => match i with 3%nat => 1 | _ => 0 end).
    rewrite (C99_form _ _ _ plain_paired SD). unfold discretization. cbn [suml line_faces plain_line fst snd sides flat_map]. unfold interior_penalty, scale. rewrite U.
    unfold stiffness, average, jump, flux, grad_at, area, penalty, penalty1, penalty2, degsq, rho_weight. cbn. rewrite ?Rplus_0_r, ?Rmin_left by lra. lra.
Qed.
