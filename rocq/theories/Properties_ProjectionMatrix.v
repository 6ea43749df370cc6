(** * Property theorems C83, C84: the matrices of the level set projections *)
From Coq Require Import Reals List Bool Arith Lia Lra FunctionalExtensionality.
From Verif Require Import SumR Model_ProjectionMatrix.
Import ListNotations.
Open Scope R_scope.

(** ** Specification *)
(** masters of constrained unknowns are free (AffineConstraints::close) *)
Definition closed (con : constraints) : Prop := forall h l m w, con h = Some l -> In (m, w) l -> con m = None.
Definition dofs_below (con : constraints) (N : nat) (mesh : list mcell) : Prop :=
  forall c b m w, In c mesh -> (b < mc_n c)%nat -> In (m, w) (expand con (mc_dof c b)) -> (m < N)%nat.
Definition constrained_below (con : constraints) (N : nat) (mesh : list mcell) : Prop :=
  forall c b, In c mesh -> (b < mc_n c)%nat -> con (mc_dof c b) <> None -> (mc_dof c b < N)%nat.
Definition vmult (N : nat) (M : nat -> nat -> R) (x : nat -> R) (g : nat) : R := sumn N (fun c => M g c * x c).
(** the bilinear form of the documented projection (mass plus damping times Laplacian) for the functions with coefficients x, y *)
Definition projection_form (dim : nat) (mind deg : R) (con : constraints) (mesh : list mcell) (x y : nat -> R) : R :=
  suml mesh (fun c => suml (mc_pts c) (fun p => m_JxW p *
    (m_value c p (read_dofs con c x) * m_value c p (read_dofs con c y)
     + 4 * (Rmax mind (mc_diameter c / deg) * Rmax mind (mc_diameter c / deg)) * sumn dim (fun d => m_gradient c p (read_dofs con c x) d * m_gradient c p (read_dofs con c y) d)))).

(** piecewise linear shape functions at points inside of the sub-cells: nonnegative, and without value no gradient *)
Definition hat_points (ref : list mpt) : Prop :=
  forall p i, In p ref -> 0 <= m_shape p i /\ (m_shape p i = 0 -> forall d, m_grad p i d = 0).
(** the points of a cell have the shape values of the reference points, and gradients that vanish where those do (the gradient is the
    product of the inverse Jacobian and the reference gradient) *)
Definition same_shapes (ref : list mpt) (c : mcell) : Prop :=
  Forall2 (fun p q => (forall i, m_shape p i = m_shape q i) /\ (forall i, (forall d, m_grad p i d = 0) -> forall d, m_grad q i d = 0)) ref (mc_pts c).

(** ** Auxiliary *)
Lemma suml_flat_map {A B} (f : A -> list B) (l : list A) (g : B -> R) : suml (flat_map f l) g = suml l (fun x => suml (f x) g).
Proof. induction l as [|x l IH]; cbn; auto. rewrite suml_app, IH. auto. Qed.
Lemma suml_seq0 n f : suml (seq 0 n) f = sumn n f.
Proof.
  assert (H : forall k, suml (seq k n) f = sumn n (fun i => f (k + i)%nat)).
  { revert f; induction n as [|n IH]; intros f k; auto. rewrite seq_S, suml_app, IH. cbn. ring. }
  rewrite H. apply sumn_ext. auto.
Qed.
Lemma sumn_pick N c (f : nat -> R) : (c < N)%nat -> sumn N (fun i => if Nat.eqb c i then f i else 0) = f c.
Proof.
  intros H. rewrite (sumn_delta N c); auto; [rewrite Nat.eqb_refl; auto|]. intros i _ Hi. destruct (Nat.eqb_spec c i); [congruence|auto].
Qed.
Lemma cell_apply_matrix dim mind deg c u j :
  cell_apply dim mind deg c u j = sumn (mc_n c) (fun i => cell_matrix dim mind deg c j i * u i).
Proof.
  unfold cell_matrix, cell_apply.
  assert (V : forall p i, (i < mc_n c)%nat -> m_value c p (unit_vec i) = m_shape p i).
  { intros p i Hi. unfold m_value, unit_vec. rewrite (sumn_delta _ i); auto; [rewrite Nat.eqb_refl; ring|]. intros k _ Hk. destruct (Nat.eqb_spec k i); [contradiction|ring]. }
  assert (G : forall p i d, (i < mc_n c)%nat -> m_gradient c p (unit_vec i) d = m_grad p i d).
  { intros p i d Hi. unfold m_gradient, unit_vec. rewrite (sumn_delta _ i); auto; [rewrite Nat.eqb_refl; ring|]. intros k _ Hk. destruct (Nat.eqb_spec k i); [contradiction|ring]. }
  rewrite (sumn_ext (mc_n c) _ (fun i => suml (mc_pts c) (fun p => m_JxW p * (m_shape p i * m_shape p j + sumn dim (fun d => m_grad p i d * damping mind deg c * m_grad p j d)) * u i))).
  2: { intros i Hi. rewrite Rmult_comm, <- suml_scal. apply suml_ext. intros p _. rewrite V by auto.
       rewrite (sumn_ext dim _ (fun d => m_grad p i d * damping mind deg c * m_grad p j d)) by (intros; rewrite G by auto; auto). ring. }
  rewrite <- suml_sumn. apply suml_ext. intros p _.
  rewrite (sumn_ext (mc_n c) _ (fun i => m_JxW p * (u i * m_shape p i * m_shape p j + sumn dim (fun d => u i * m_grad p i d * damping mind deg c * m_grad p j d)))).
  2: { intros i _. rewrite (sumn_ext dim (fun d => u i * m_grad p i d * damping mind deg c * m_grad p j d) (fun d => u i * (m_grad p i d * damping mind deg c * m_grad p j d))) by (intros; ring).
       rewrite sumn_scal. ring. }
  rewrite sumn_scal, sumn_plus, sumn_scal_r. unfold m_value. do 2 f_equal. rewrite sumn_swap. apply sumn_ext. intros d _.
  unfold m_gradient. rewrite sumn_scal_r, sumn_scal_r. reflexivity.
Qed.
Lemma cell_matrix_sym dim mind deg c i j : (i < mc_n c)%nat -> (j < mc_n c)%nat -> cell_matrix dim mind deg c i j = cell_matrix dim mind deg c j i.
Proof.
  intros Hi Hj. unfold cell_matrix, cell_apply. apply suml_ext. intros p _. f_equal.
  assert (V : forall i, (i < mc_n c)%nat -> m_value c p (unit_vec i) = m_shape p i).
  { intros k Hk. unfold m_value, unit_vec. rewrite (sumn_delta _ k); auto; [rewrite Nat.eqb_refl; ring|]. intros l _ Hl. destruct (Nat.eqb_spec l k); [contradiction|ring]. }
  assert (G : forall i d, (i < mc_n c)%nat -> m_gradient c p (unit_vec i) d = m_grad p i d).
  { intros k d Hk. unfold m_gradient, unit_vec. rewrite (sumn_delta _ k); auto; [rewrite Nat.eqb_refl; ring|]. intros l _ Hl. destruct (Nat.eqb_spec l k); [contradiction|ring]. }
  rewrite !V by auto. rewrite Rmult_comm. f_equal. apply sumn_ext. intros d _. rewrite !G by auto. ring.
Qed.
(** summing the entries against a test function of (row, column) *)
Lemma local_entries_sum con c A (h : nat -> nat -> R) :
  suml (local_entries con c A) (fun t => snd t * h (fst (fst t)) (snd (fst t))) =
  sumn (mc_n c) (fun a => suml (expand con (mc_dof c a)) (fun rw => snd rw *
    sumn (mc_n c) (fun b => A a b * suml (expand con (mc_dof c b)) (fun cw => snd cw * h (fst rw) (fst cw))))).
Proof.
  unfold local_entries. rewrite suml_flat_map, suml_seq0. apply sumn_ext. intros a _. rewrite suml_flat_map, suml_seq0.
  transitivity (sumn (mc_n c) (fun b => suml (expand con (mc_dof c a)) (fun rw => snd rw * (A a b * suml (expand con (mc_dof c b)) (fun cw => snd cw * h (fst rw) (fst cw)))))).
  - apply sumn_ext. intros b _. rewrite suml_flat_map. apply suml_ext. intros rw _. rewrite suml_map. cbn [fst snd].
    rewrite <- Rmult_assoc, <- suml_scal. apply suml_ext. intros cw _. ring.
  - rewrite <- suml_sumn. apply suml_ext. intros rw _. rewrite sumn_scal. reflexivity.
Qed.
Lemma constrained_diagonal_in con c A r k v : In (r, k, v) (constrained_diagonal con c A) -> r = k /\ con r <> None /\ exists a, (a < mc_n c)%nat /\ mc_dof c a = r /\ v = Rabs (A a a).
Proof.
  unfold constrained_diagonal. intros H. apply in_flat_map in H. destruct H as (a & Ia & H). apply in_seq in Ia.
  destruct (con (mc_dof c a)) eqn:E; [|destruct H]. destruct H as [H|[]]. injection H as <- <- <-. split; auto. split; [congruence|]. exists a. split; [lia|auto].
Qed.
Lemma local_entries_in con c A r k v : In (r, k, v) (local_entries con c A) -> exists a b wr wc, (a < mc_n c)%nat /\ (b < mc_n c)%nat /\
  In (r, wr) (expand con (mc_dof c a)) /\ In (k, wc) (expand con (mc_dof c b)) /\ v = wr * A a b * wc.
Proof.
  unfold local_entries. intros H. apply in_flat_map in H. destruct H as (a & Ia & H). apply in_flat_map in H. destruct H as (b & Ib & H).
  apply in_flat_map in H. destruct H as ([m wr] & Ir & H). apply in_map_iff in H. destruct H as ([n wc] & E & Ic). cbn [fst snd] in E. injection E as <- <- <-.
  apply in_seq in Ia. apply in_seq in Ib. exists a, b, wr, wc. repeat split; auto; lia.
Qed.
Lemma expand_free con h m w : closed con -> In (m, w) (expand con h) -> con m = None.
Proof.
  intros Hc. unfold expand. destruct (con h) eqn:E; intros H; [eapply Hc; eauto|]. destruct H as [H|[]]. injection H as <- _. auto.
Qed.

(** ** C83 *)
(** On every mesh, with hanging nodes and Dirichlet conditions: the assembled matrix acts on the free unknowns like the operator. *)
Theorem C83_matrix_is_operator : forall dim mind deg con ref mesh M N,
  closed con -> dofs_below con N mesh -> constrained_below con N mesh ->
  projection_matrix dim mind deg con ref mesh = Some M ->
  forall src g, con g = None -> vmult N M src g = matrix_free_vmult dim mind deg con mesh src g.
Proof.
  intros dim mind deg con ref mesh M N Hc HN HC HM src g Hg. unfold projection_matrix in HM. destruct (forallb _ _); [|discriminate]. injection HM as <-.
  unfold vmult. set (e := all_entries dim mind deg con mesh).
  assert (B : forall t, In t e -> (snd (fst t) < N)%nat).
  { intros [[r k] v] H. unfold e, all_entries in H. apply in_flat_map in H. destruct H as (c & Ic & H). cbn [fst snd]. apply in_app_iff in H. destruct H as [H|H].
    - apply local_entries_in in H. destruct H as (a & b & wr & wc & _ & Hb & _ & H & _). eapply HN; eauto.
    - apply constrained_diagonal_in in H. destruct H as (-> & H & a & Ha & E & _). rewrite <- E. apply HC; auto. congruence. }
  transitivity (suml e (fun t => snd t * (if Nat.eqb (fst (fst t)) g then src (snd (fst t)) else 0))).
  { clear Hg HN HC Hc. induction e as [|t e IH]; cbn [suml].
    - rewrite (sumn_ext N _ (fun _ => 0)) by (intros; ring). apply sumn_0.
    - rewrite (sumn_ext N _ (fun c => (if Nat.eqb (snd (fst t)) c then (if Nat.eqb (fst (fst t)) g then snd t * src c else 0) else 0)
         + suml e (fun t => if Nat.eqb (fst (fst t)) g && Nat.eqb (snd (fst t)) c then snd t else 0) * src c)).
      2: { intros c _. destruct (Nat.eqb (fst (fst t)) g), (Nat.eqb (snd (fst t)) c); cbn [andb]; ring. }
      rewrite sumn_plus, IH by (intros; apply B; right; auto). f_equal.
      rewrite (sumn_pick N (snd (fst t)) (fun c => if Nat.eqb (fst (fst t)) g then snd t * src c else 0)) by (apply B; left; auto).
      destruct (Nat.eqb (fst (fst t)) g); ring. }
  unfold e, all_entries, matrix_free_vmult. rewrite suml_flat_map. apply suml_ext. intros c Ic. rewrite suml_app.
  rewrite (suml_zero (constrained_diagonal _ _ _)).
  2: { intros [[r k] v] H. cbn [fst snd]. apply constrained_diagonal_in in H. destruct H as (_ & H & _). destruct (Nat.eqb_spec r g) as [->|]; [contradiction|ring]. }
  rewrite Rplus_0_r.
  rewrite (local_entries_sum con c (cell_matrix dim mind deg c) (fun r k => if Nat.eqb r g then src k else 0)).
  apply sumn_ext. intros a Ha. apply suml_ext. intros [r wr] _. cbn [fst snd]. destruct (Nat.eqb r g).
  - f_equal. rewrite cell_apply_matrix. reflexivity.
  - rewrite sumn_zero; [ring|]. intros b _. rewrite suml_zero; [ring|]. intros; ring.
Qed.
Print Assumptions C83_matrix_is_operator.
(** Symmetric, and the quadratic form is the one of the projection on functions that satisfy the constraints; hence positive definite
    where the quadrature sees the function. *)
Lemma quadratic_entries N (e : list (nat * nat * R)) x y : (forall t, In t e -> (fst (fst t) < N)%nat /\ (snd (fst t) < N)%nat) ->
  sumn N (fun r => x r * vmult N (fun r c => suml e (fun t => if Nat.eqb (fst (fst t)) r && Nat.eqb (snd (fst t)) c then snd t else 0)) y r)
  = suml e (fun t => snd t * (x (fst (fst t)) * y (snd (fst t)))).
Proof.
  induction e as [|t e IH]; intros B; cbn [suml].
  - apply sumn_zero. intros r _. unfold vmult. rewrite sumn_zero; [ring|]. intros; cbn; ring.
  - destruct (B t (or_introl eq_refl)) as [B1 B2]. rewrite <- IH by (intros; apply B; right; auto).
    rewrite (sumn_ext N _ (fun r => (if Nat.eqb (fst (fst t)) r then snd t * (x r * y (snd (fst t))) else 0)
      + x r * vmult N (fun r c => suml e (fun t => if Nat.eqb (fst (fst t)) r && Nat.eqb (snd (fst t)) c then snd t else 0)) y r)).
    + rewrite sumn_plus, sumn_pick by auto. reflexivity.
    + intros r _. unfold vmult.
      rewrite (sumn_ext N _ (fun c => (if Nat.eqb (snd (fst t)) c then (if Nat.eqb (fst (fst t)) r then snd t * y c else 0) else 0)
         + suml e (fun t => if Nat.eqb (fst (fst t)) r && Nat.eqb (snd (fst t)) c then snd t else 0) * y c)).
      2: { intros c _. destruct (Nat.eqb (fst (fst t)) r), (Nat.eqb (snd (fst t)) c); cbn [andb]; ring. }
      rewrite sumn_plus, (sumn_pick N (snd (fst t)) (fun c => if Nat.eqb (fst (fst t)) r then snd t * y c else 0)) by auto.
      destruct (Nat.eqb (fst (fst t)) r); ring.
Qed.
Theorem C83_symmetric_positive : forall dim mind deg con ref mesh M N,
  closed con -> dofs_below con N mesh -> constrained_below con N mesh ->
  projection_matrix dim mind deg con ref mesh = Some M ->
  (forall x y, (forall g, con g <> None -> x g = 0) ->
     sumn N (fun r => x r * vmult N M y r) = projection_form dim mind deg con mesh x y) /\
  (forall r c, (r < N)%nat -> (c < N)%nat -> M r c = M c r) /\
  ((forall c p, In c mesh -> In p (mc_pts c) -> 0 < m_JxW p) -> forall x,
     0 <= sumn N (fun r => x r * vmult N M x r) /\
     (sumn N (fun r => x r * vmult N M x r) = 0 -> forall c p, In c mesh -> In p (mc_pts c) -> m_value c p (read_dofs con c x) = 0)).
Proof.
  intros dim mind deg con ref mesh M N Hc HN HC HM. unfold projection_matrix in HM. destruct (forallb _ _); [|discriminate]. injection HM as <-.
  set (e := all_entries dim mind deg con mesh).
  assert (B : forall t, In t e -> (fst (fst t) < N)%nat /\ (snd (fst t) < N)%nat).
  { intros [[r k] v] H. unfold e, all_entries in H. apply in_flat_map in H. destruct H as (c & Ic & H). cbn [fst snd]. apply in_app_iff in H. destruct H as [H|H].
    - apply local_entries_in in H. destruct H as (a & b & wr & wc & Ha & Hb & H1 & H & _). split; [eapply (HN c a)|eapply (HN c b)]; eauto.
    - apply constrained_diagonal_in in H. destruct H as (-> & H & a & Ha & E & _). rewrite <- E. split; apply HC; auto; congruence. }
  assert (Q : forall x y, sumn N (fun r => x r * vmult N (fun r c => suml e (fun t => if Nat.eqb (fst (fst t)) r && Nat.eqb (snd (fst t)) c then snd t else 0)) y r)
    = projection_form dim mind deg con mesh x y
      + suml mesh (fun c => suml (constrained_diagonal con c (cell_matrix dim mind deg c)) (fun t => snd t * (x (fst (fst t)) * y (snd (fst t)))))).
  { intros x y. rewrite quadratic_entries by exact B. unfold e, all_entries, projection_form. rewrite suml_flat_map, <- suml_plus. apply suml_ext. intros c Ic.
    rewrite suml_app. f_equal. rewrite (local_entries_sum con c (cell_matrix dim mind deg c) (fun r k => x r * y k)).
    transitivity (sumn (mc_n c) (fun a => read_dofs con c x a * cell_apply dim mind deg c (read_dofs con c y) a)).
    - apply sumn_ext. intros a _. unfold read_dofs at 1. rewrite Rmult_comm, <- suml_scal. apply suml_ext. intros [r wr] _. cbn [fst snd]. rewrite cell_apply_matrix.
      rewrite (Rmult_comm (sumn (mc_n c) _)), Rmult_assoc. f_equal. rewrite <- sumn_scal. apply sumn_ext. intros b _. unfold read_dofs.
      rewrite <- !suml_scal. apply suml_ext. intros; ring.
    - unfold cell_apply.
      rewrite (sumn_ext (mc_n c) _ (fun a => suml (mc_pts c) (fun p => read_dofs con c x a * (m_JxW p * (m_value c p (read_dofs con c y) * m_shape p a
        + sumn dim (fun d => m_gradient c p (read_dofs con c y) d * damping mind deg c * m_grad p a d)))))) by (intros; rewrite suml_scal; reflexivity).
      rewrite <- suml_sumn. apply suml_ext. intros p _.
      rewrite (sumn_ext (mc_n c) _ (fun a => m_JxW p * (m_value c p (read_dofs con c y) * (read_dofs con c x a * m_shape p a)
        + damping mind deg c * sumn dim (fun d => m_gradient c p (read_dofs con c y) d * (read_dofs con c x a * m_grad p a d))))).
      2: { intros a _. rewrite (sumn_ext dim (fun d => m_gradient c p (read_dofs con c y) d * damping mind deg c * m_grad p a d) (fun d => damping mind deg c * (m_gradient c p (read_dofs con c y) d * m_grad p a d))) by (intros; ring).
           rewrite (sumn_ext dim (fun d => m_gradient c p (read_dofs con c y) d * (read_dofs con c x a * m_grad p a d)) (fun d => read_dofs con c x a * (m_gradient c p (read_dofs con c y) d * m_grad p a d))) by (intros; ring).
           rewrite !sumn_scal. ring. }
      rewrite sumn_scal, sumn_plus, !sumn_scal. f_equal. f_equal; [unfold m_value; ring|]. f_equal. rewrite sumn_swap. apply sumn_ext. intros d _.
      rewrite sumn_scal. unfold m_gradient at 2. ring. }
  split; [|split].
  - intros x y Hx. rewrite Q, (suml_zero mesh); [ring|]. intros c Ic. apply suml_zero. intros [[r k] v] H. cbn [fst snd].
    apply constrained_diagonal_in in H. destruct H as (_ & H & _). rewrite (Hx r H). ring.
  - intros r k Hr Hk.
    assert (E : forall i j, (i < N)%nat -> (j < N)%nat -> suml e (fun t => if Nat.eqb (fst (fst t)) i && Nat.eqb (snd (fst t)) j then snd t else 0)
       = sumn N (fun r => unit_vec i r * vmult N (fun r c => suml e (fun t => if Nat.eqb (fst (fst t)) r && Nat.eqb (snd (fst t)) c then snd t else 0)) (unit_vec j) r)).
    { intros i j Hi Hj. rewrite (sumn_delta N i); auto.
      - unfold unit_vec at 1. rewrite Nat.eqb_refl. unfold vmult. rewrite (sumn_delta N j); auto; [unfold unit_vec; rewrite Nat.eqb_refl; ring|].
        intros l _ Hl. unfold unit_vec. destruct (Nat.eqb_spec l j); [contradiction|ring].
      - intros l _ Hl. unfold unit_vec at 1. destruct (Nat.eqb_spec l i); [contradiction|ring]. }
    rewrite (E r k Hr Hk), (E k r Hk Hr), !Q. f_equal.
    + unfold projection_form. apply suml_ext. intros c _. apply suml_ext. intros p _. f_equal. f_equal; [ring|]. f_equal. apply sumn_ext. intros; ring.
    + apply suml_ext. intros c _. apply suml_ext. intros [[a b] v] H. cbn [fst snd]. apply constrained_diagonal_in in H. destruct H as (-> & _). ring.
  - intros HJ x. rewrite Q.
    assert (D : 0 <= suml mesh (fun c => suml (constrained_diagonal con c (cell_matrix dim mind deg c)) (fun t => snd t * (x (fst (fst t)) * x (snd (fst t)))))).
    { apply suml_nonneg. intros c _. apply suml_nonneg. intros [[a b] v] H. cbn [fst snd]. apply constrained_diagonal_in in H. destruct H as (-> & _ & k & _ & _ & ->).
      apply Rmult_le_pos; [apply Rabs_pos|]. nra. }
    assert (DP : forall c, 0 <= damping mind deg c) by (intros; unfold damping; nra).
    assert (SP : forall c p, 0 <= sumn dim (fun d => m_gradient c p (read_dofs con c x) d * m_gradient c p (read_dofs con c x) d)) by (intros; apply sumn_nonneg; intros; nra).
    assert (PP : forall c p, In c mesh -> In p (mc_pts c) -> 0 <= m_JxW p * (m_value c p (read_dofs con c x) * m_value c p (read_dofs con c x)
        + damping mind deg c * sumn dim (fun d => m_gradient c p (read_dofs con c x) d * m_gradient c p (read_dofs con c x) d))).
    { intros c p Ic Ip. apply Rmult_le_pos; [left; eapply HJ; eauto|]. specialize (DP c). specialize (SP c p). pose proof (Rmult_le_pos _ _ DP SP). nra. }
    assert (F : 0 <= projection_form dim mind deg con mesh x x) by (apply suml_nonneg; intros; apply suml_nonneg; intros; apply PP; assumption).
    split; [lra|]. intros Z c p Ic Ip. assert (F0 : projection_form dim mind deg con mesh x x = 0) by lra.
    pose proof (suml_nonneg_zero _ _ (fun c Ic => suml_nonneg _ _ (fun p Ip => PP c p Ic Ip)) F0 c Ic) as Z1.
    pose proof (suml_nonneg_zero _ _ (fun p Ip => PP c p Ic Ip) Z1 p Ip) as Z2. cbv beta in Z2.
    specialize (HJ c p Ic Ip). specialize (DP c). specialize (SP c p). pose proof (Rmult_le_pos _ _ DP SP) as DS.
    apply Rmult_integral in Z2. destruct Z2 as [Z2|Z2]; [lra|].
    assert (m_value c p (read_dofs con c x) * m_value c p (read_dofs con c x) = 0) by nra. nra.
Qed.
Print Assumptions C83_symmetric_positive.
(** The compact sparsity pattern loses nothing for piecewise linear shape functions: the assembly does not fail, and entries that are not in the
    mask are exactly zero. *)
Lemma masked_entry_zero dim mind deg ref c i j : hat_points ref -> same_shapes ref c -> (i < mc_n c)%nat -> (j < mc_n c)%nat ->
  dof_mask ref i j = false -> cell_matrix dim mind deg c i j = 0.
Proof.
  intros Hh Hs Hi Hj Hm. unfold dof_mask, Rneqb in Hm. destruct (Req_EM_T _ 0) as [Z|]; [|discriminate].
  assert (P : forall p, In p ref -> m_shape p i * m_shape p j = 0).
  { apply (suml_nonneg_zero ref (fun p => m_shape p i * m_shape p j)); auto. intros p Ip. apply Rmult_le_pos; apply (Hh p); auto. }
  unfold cell_matrix, cell_apply. apply suml_zero. intros q Iq.
  assert (exists p, In p ref /\ (forall k, m_shape p k = m_shape q k) /\ (forall k, (forall d, m_grad p k d = 0) -> forall d, m_grad q k d = 0)) as (p & Ip & E & G).
  { unfold same_shapes in Hs. clear - Hs Iq. induction Hs as [|p q' l l' [E G] Hs IH]; [destruct Iq|]. destruct Iq as [->|Iq].
    - exists p. split; [left; auto|auto]. - destruct (IH Iq) as (p' & I & X). exists p'. split; [right; auto|auto]. }
  assert (V : m_value c q (unit_vec j) = m_shape q j).
  { unfold m_value, unit_vec. rewrite (sumn_delta _ j); auto; [rewrite Nat.eqb_refl; ring|]. intros k _ Hk. destruct (Nat.eqb_spec k j); [contradiction|ring]. }
  assert (GG : forall d, m_gradient c q (unit_vec j) d = m_grad q j d).
  { intros d. unfold m_gradient, unit_vec. rewrite (sumn_delta _ j); auto; [rewrite Nat.eqb_refl; ring|]. intros k _ Hk. destruct (Nat.eqb_spec k j); [contradiction|ring]. }
  rewrite V, <- !E. pose proof (P p Ip) as Z1. rewrite (Rmult_comm (m_shape p j)), Z1, sumn_zero; [ring|]. intros d _. rewrite GG.
  apply Rmult_integral in Z1. destruct Z1 as [Z1|Z1].
  - rewrite (G i (proj2 (Hh p i Ip) Z1)). ring.
  - rewrite (G j (proj2 (Hh p j Ip) Z1)). ring.
Qed.
Theorem C83_mask_loses_nothing : forall dim mind deg con ref mesh,
  hat_points ref -> (forall c, In c mesh -> same_shapes ref c) ->
  exists M, projection_matrix dim mind deg con ref mesh = Some M.
Proof.
  intros dim mind deg con ref mesh Hh Hs. unfold projection_matrix. set (pat := flat_map _ mesh).
  match goal with |- context [forallb ?f ?l] => assert (E : forallb f l = true) end; [|rewrite E; eexists; reflexivity].
  apply forallb_forall. intros [[r k] v] H. cbn [fst snd]. apply orb_true_iff. unfold all_entries in H. apply in_flat_map in H. destruct H as (c & Ic & H).
  assert (IN : forall x, In x (pattern con (dof_mask ref) c) -> in_pattern pat (fst x) (snd x) = true).
  { intros x I. unfold in_pattern. apply existsb_exists. exists x. split; [apply in_flat_map; exists c; auto|]. rewrite !Nat.eqb_refl. auto. }
  apply in_app_iff in H. destruct H as [H|H].
  - apply local_entries_in in H. destruct H as (a & b & wr & wc & Ha & Hb & Hr & Hk & ->). destruct (dof_mask ref a b) eqn:Em.
    + right. apply (IN (r, k)). unfold pattern. apply in_app_iff. left. apply in_flat_map. exists a. split; [apply in_seq; lia|].
      apply in_flat_map. exists b. split; [apply in_seq; lia|]. rewrite Em. apply in_flat_map. exists (r, wr). split; auto. apply in_map_iff. exists (k, wc). auto.
    + left. rewrite (masked_entry_zero dim mind deg ref c a b) by auto. unfold Rneqb. destruct (Req_EM_T _ 0) as [|X]; auto. exfalso. apply X. ring.
  - right. apply constrained_diagonal_in in H. destruct H as (-> & Hn & a & Ha & E & _). apply (IN (k, k)). unfold pattern. apply in_app_iff. right.
    apply in_flat_map. exists a. split; [apply in_seq; lia|]. rewrite E. destruct (con k); [left; auto|contradiction].
Qed.
Print Assumptions C83_mask_loses_nothing.
(** The shape functions of FE_Q_iso_Q1: tensor products of hat functions with nodes k/n; at points that are no nodes in any coordinate
    (Gauss points of the sub-cells) they satisfy the condition. *)
Definition hat (n : nat) (k : nat) (x : R) : R := Rmax 0 (1 - Rabs (INR n * x - INR k)).
Definition hat_slope (n : nat) (k : nat) (x : R) : R :=
  if Rlt_dec (Rabs (INR n * x - INR k)) 1 then (if Rlt_dec (INR n * x) (INR k) then INR n else - INR n) else 0.
Fixpoint prodn (m : nat) (f : nat -> R) : R := match m with O => 1 | S m => prodn m f * f m end.
(** shape function with multi-index K at x: value and reference gradient *)
Definition iso_q1_point (dim n : nat) (K : nat -> nat -> nat) (w : R) (x : nat -> R) : mpt :=
  MkMpt w (fun i => prodn dim (fun e => hat n (K i e) (x e)))
          (fun i d => if Nat.ltb d dim then prodn dim (fun e => if Nat.eqb e d then hat_slope n (K i e) (x e) else hat n (K i e) (x e)) else 0).
Lemma prodn_nonneg m f : (forall e, (e < m)%nat -> 0 <= f e) -> 0 <= prodn m f.
Proof. induction m as [|m IH]; intros H; cbn; [lra|]. apply Rmult_le_pos; auto. Qed.
Lemma prodn_zero m f : prodn m f = 0 <-> exists e, (e < m)%nat /\ f e = 0.
Proof.
  induction m as [|m IH]; cbn.
  - split; [lra|]. intros (e & H & _). lia.
  - split.
    + intros H. apply Rmult_integral in H. destruct H as [H|H]; [|exists m; auto]. apply IH in H. destruct H as (e & He & E). exists e. auto.
    + intros (e & He & E). destruct (Nat.eq_dec e m) as [->|]; [rewrite E; ring|]. assert (prodn m f = 0) as -> by (apply IH; exists e; split; [lia|auto]). ring.
Qed.
Theorem C83_iso_q1_points : forall dim n K (pts : list (R * (nat -> R))),
  hat_points (map (fun wx => iso_q1_point dim n K (fst wx) (snd wx)) pts).
Proof.
  intros dim n K pts p i Ip. apply in_map_iff in Ip. destruct Ip as ([w x] & <- & _). cbn [m_shape m_grad iso_q1_point fst snd]. split.
  - apply prodn_nonneg. intros e _. unfold hat. apply Rmax_l.
  - intros Z d. destruct (Nat.ltb_spec d dim); [|auto]. apply prodn_zero in Z. destruct Z as (e & He & Z). apply prodn_zero. exists e. split; auto.
    destruct (Nat.eqb_spec e d); [|exact Z]. unfold hat in Z. unfold hat_slope. destruct (Rlt_dec (Rabs (INR n * x e - INR (K i e))) 1) as [L|]; auto. exfalso.
    revert Z. rewrite Rmax_right by lra. lra.
Qed.
Print Assumptions C83_iso_q1_points.

(** ** C84 *)
Definition hanging_weights_nonneg (con : constraints) : Prop := forall h l m w, con h = Some l -> In (m, w) l -> 0 <= w.
(** entry g of the diagonal of the mass matrix with the constraints resolved *)
Definition true_mass_diagonal (con : constraints) (mesh : list mcell) (g : nat) : R :=
  suml mesh (fun c => suml (mc_pts c) (fun p => m_JxW p *
     (m_value c p (read_dofs con c (unit_vec g)) * m_value c p (read_dofs con c (unit_vec g))))).
(** Every unknown with a cell gets a positive entry, so that the preconditioner is positive. *)
Theorem C84_positive : forall con mesh g,
  hanging_weights_nonneg con -> con g = None -> (forall c p, In c mesh -> In p (mc_pts c) -> 0 < m_JxW p) ->
  (exists c a p, In c mesh /\ (a < mc_n c)%nat /\ mc_dof c a = g /\ In p (mc_pts c) /\ m_shape p a <> 0) ->
  0 < mass_diagonal con mesh g.
Proof.
  intros con mesh g Hw Hg HJ (c & a & p & Ic & Ha & Ea & Ip & Hs).
  assert (L : forall c, In c mesh -> forall a, 0 <= local_mass_diagonal c a).
  { intros c' Ic' b. apply suml_nonneg. intros q Iq. apply Rmult_le_pos; [nra|]. left. eapply HJ; eauto. }
  assert (T : forall c, In c mesh -> forall a, 0 <= suml (expand con (mc_dof c a)) (fun mw => if Nat.eqb (fst mw) g then snd mw * local_mass_diagonal c a else 0)).
  { intros c' Ic' b. apply suml_nonneg. intros [m w] I. cbn [fst snd]. destruct (Nat.eqb m g); [|lra]. apply Rmult_le_pos; [|auto].
    unfold expand in I. destruct (con (mc_dof c' b)) eqn:E; [eapply Hw; eauto|]. destruct I as [I|[]]. injection I as <- <-. lra. }
  assert (C : forall c, In c mesh -> 0 <= sumn (mc_n c) (fun a => suml (expand con (mc_dof c a)) (fun mw => if Nat.eqb (fst mw) g then snd mw * local_mass_diagonal c a else 0))).
  { intros c' Ic'. apply sumn_nonneg. intros b _. apply T; auto. }
  destruct (Rle_lt_or_eq_dec 0 (mass_diagonal con mesh g)) as [|Z]; [apply suml_nonneg; exact C|assumption|]. exfalso. symmetry in Z.
  pose proof (suml_nonneg_zero _ _ C Z c Ic) as Z1. pose proof (sumn_nonneg_zero _ _ (fun b _ => T c Ic b) Z1 a Ha) as Z2. cbv beta in Z2.
  rewrite Ea in Z2. unfold expand in Z2. rewrite Hg in Z2. cbn [suml fst snd] in Z2. rewrite Nat.eqb_refl in Z2.
  assert (Z3 : local_mass_diagonal c a = 0) by lra. unfold local_mass_diagonal in Z3.
  assert (PQ : forall q, In q (mc_pts c) -> 0 <= m_shape q a * m_shape q a * m_JxW q) by (intros q Iq; apply Rmult_le_pos; [nra|left; eapply HJ; eauto]).
  pose proof (suml_nonneg_zero _ _ PQ Z3 p Ip) as Z4. cbv beta in Z4. specialize (HJ c p Ic Ip). assert (0 < m_shape p a * m_shape p a) by nra. nra.
Qed.
Print Assumptions C84_positive.
(** It is the diagonal of the mass matrix for every unknown that is no master of a hanging node. *)
Theorem C84_diagonal : forall con mesh g,
  con g = None -> (forall h l w, con h = Some l -> ~ In (g, w) l) ->
  (forall c a b, In c mesh -> (a < mc_n c)%nat -> (b < mc_n c)%nat -> mc_dof c a = mc_dof c b -> a = b) ->
  mass_diagonal con mesh g = true_mass_diagonal con mesh g.
Proof.
  intros con mesh g Hg Hm Hd. apply suml_ext. intros c Ic.
  assert (R1 : forall b, read_dofs con c (unit_vec g) b = if Nat.eqb (mc_dof c b) g then 1 else 0).
  { intros b. unfold read_dofs, expand. destruct (con (mc_dof c b)) as [l|] eqn:E.
    - destruct (Nat.eqb_spec (mc_dof c b) g) as [X|]; [congruence|]. apply suml_zero. intros [m w] I. cbn [fst snd]. unfold unit_vec. destruct (Nat.eqb_spec m g) as [->|]; [|ring]. exfalso. eapply Hm; eauto.
    - cbn [suml fst snd]. unfold unit_vec. destruct (Nat.eqb (mc_dof c b) g); ring. }
  assert (R2 : forall a, suml (expand con (mc_dof c a)) (fun mw => if Nat.eqb (fst mw) g then snd mw * local_mass_diagonal c a else 0) = if Nat.eqb (mc_dof c a) g then local_mass_diagonal c a else 0).
  { intros b. unfold expand. destruct (con (mc_dof c b)) as [l|] eqn:E.
    - destruct (Nat.eqb_spec (mc_dof c b) g) as [X|]; [congruence|]. apply suml_zero. intros [m w] I. cbn [fst snd]. destruct (Nat.eqb_spec m g) as [->|]; [|ring]. exfalso. eapply Hm; eauto.
    - cbn [suml fst snd]. destruct (Nat.eqb (mc_dof c b) g); ring. }
  rewrite (sumn_ext _ _ _ (fun a _ => R2 a)).
  assert (D : (exists a, (a < mc_n c)%nat /\ mc_dof c a = g) \/ (forall a, (a < mc_n c)%nat -> mc_dof c a <> g)).
  { clear - c. induction (mc_n c) as [|n IH]; [right; intros; lia|]. destruct IH as [(a & H & E)|H]; [left; exists a; auto|].
    destruct (Nat.eq_dec (mc_dof c n) g); [left; exists n; auto|right]. intros a Ha. destruct (Nat.eq_dec a n) as [->|]; auto. apply H; lia. }
  destruct D as [(a & Ha & Ea)|D].
  - rewrite (sumn_delta _ a); auto.
    + rewrite Ea, Nat.eqb_refl. unfold local_mass_diagonal. apply suml_ext. intros p _. unfold m_value.
      assert (V : sumn (mc_n c) (fun k => read_dofs con c (unit_vec g) k * m_shape p k) = m_shape p a).
      { rewrite (sumn_delta _ a); auto; [rewrite R1, Ea, Nat.eqb_refl; ring|]. intros k Hk Hn. rewrite R1. destruct (Nat.eqb_spec (mc_dof c k) g) as [X|]; [|ring].
        exfalso. apply Hn. apply (Hd c); auto; congruence. }
      rewrite V. ring.
    + intros k Hk Hn. destruct (Nat.eqb_spec (mc_dof c k) g) as [X|]; [|auto]. exfalso. apply Hn. apply (Hd c); auto; congruence.
  - rewrite sumn_zero by (intros a Ha; destruct (Nat.eqb_spec (mc_dof c a) g) as [X|]; [exfalso; eapply D; eauto|auto]).
    symmetry. apply suml_zero. intros p _. unfold m_value. rewrite sumn_zero; [ring|]. intros k Hk. rewrite R1. destruct (Nat.eqb_spec (mc_dof c k) g) as [X|]; [exfalso; eapply D; eauto|ring].
Qed.
Print Assumptions C84_diagonal.
(** For masters of hanging nodes it is not: a quadrilateral with nodes 0, 1, 2, 3, of which node 1 hangs between 0 and 5. *)
Definition hanging_example : constraints := fun h => if Nat.eqb h 1 then Some [(0%nat, 1/2); (5%nat, 1/2)] else None.
Definition hanging_cell : mcell := MkMcell 2 (fun a => a) [MkMpt 1 (fun a => if Nat.eqb a 0 then 1 else 0) (fun _ _ => 0); MkMpt 1 (fun a => if Nat.eqb a 1 then 1 else 0) (fun _ _ => 0)] 1.
Theorem C84_violation_hanging : mass_diagonal hanging_example [hanging_cell] 0 = 3/2 /\ true_mass_diagonal hanging_example [hanging_cell] 0 = 5/4.
Proof.
  unfold mass_diagonal, true_mass_diagonal, hanging_cell, hanging_example, local_mass_diagonal, m_value, read_dofs, unit_vec, expand. cbn. split; lra.
Qed.
Print Assumptions C84_violation_hanging.
Example C83_nonvacuous : closed hanging_example /\ dofs_below hanging_example 6 [hanging_cell] /\ constrained_below hanging_example 6 [hanging_cell] /\
  (exists M, projection_matrix 2 1 1 hanging_example (mc_pts hanging_cell) [hanging_cell] = Some M) /\ hat 2 1 (1/4) = 1/2.
Proof.
  assert (E : forall h, hanging_example h <> None -> h = 1%nat) by (intros h; unfold hanging_example; destruct (Nat.eqb_spec h 1); [auto|contradiction]).
  assert (X : forall h m w, In (m, w) (expand hanging_example h) -> m = h \/ m = 0%nat \/ m = 5%nat).
  { intros h m w. unfold expand, hanging_example. destruct (Nat.eqb h 1); intros H; repeat destruct H as [H|H]; try injection H as <- _; auto; destruct H. }
  repeat split.
  - intros h l m w H I. assert (h = 1%nat) by (apply E; congruence). subst h. cbn in H. injection H as <-. destruct I as [I|[I|[]]]; injection I as <- _; reflexivity.
  - intros c b m w [<-|[]] Hb I. cbn in Hb, I. apply X in I. lia.
  - intros c b [<-|[]] Hb H. cbn in *. lia.
  - apply C83_mask_loses_nothing.
    + intros p i [<-|[<-|[]]]; cbn; (split; [destruct (Nat.eqb i _); lra|auto]).
    + intros c [<-|[]]. unfold same_shapes, hanging_cell. cbn. repeat constructor; auto.
  - unfold hat. cbn. rewrite Rmax_right; unfold Rabs; destruct (Rcase_abs _); lra.
Qed.
