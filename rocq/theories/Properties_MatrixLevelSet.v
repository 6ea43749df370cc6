(** * Reinitialization of the matrix-based level set solver: C94; normals and curvature: C95 *)
From Coq Require Import Reals List Bool Lra Lia FunctionalExtensionality.
From Verif Require Import SumR Model_BoundaryValues Properties_BoundaryValues Model_Curvature Properties_Curvature Model_MatrixLevelSet.
Import ListNotations.
Open Scope R_scope.

(** ** Specification *)
(** integral over the mesh *)
Definition over (cells : list ecell) (f : ecell -> epoint -> R) : R := suml cells (fun c => suml (e_pts c) (fun p => e_JxW p * f c p)).
(** value and gradient of the finite element function with coefficients U *)
Definition val (U : nat -> R) (c : ecell) (p : epoint) : R := sumn (e_n c) (fun i => U (e_dof c i) * e_shape p i).
Definition grad (U : nat -> R) (c : ecell) (p : epoint) (d : nat) : R := sumn (e_n c) (fun i => U (e_dof c i) * e_grad p i d).
Definition dot (dim : nat) (a b : nat -> R) : R := sumn dim (fun d => a d * b d).
(** all unknowns and masters are among the first n *)
Definition below (n : nat) (con : lines) (cells : list ecell) : Prop :=
  forall c a mw, In c cells -> (a < e_n c)%nat -> In mw (expand con (e_dof c a)) -> (fst mw < n)%nat.
(** n is the unit vector in the direction of v *)
Definition direction (dim : nat) (v n : nat -> R) : Prop := dot dim n n = 1 /\ exists s, 0 < s /\ forall d, (d < dim)%nat -> v d = s * n d.
(** shape functions sum to one, hanging node lines have weights that sum to one *)
Definition sums_to_one (dim : nat) (con : lines) (cells : list ecell) : Prop :=
  (forall c p, In c cells -> In p (e_pts c) -> sumn (e_n c) (e_shape p) = 1 /\ forall d, (d < dim)%nat -> sumn (e_n c) (fun i => e_grad p i d) = 0) /\
  (forall i l, con i = Some l -> suml l snd = 1).
Definition positive_weights (cells : list ecell) : Prop := forall c p, In c cells -> In p (e_pts c) -> 0 < e_JxW p.
(** the value of a solution of the linear system after constraints.distribute *)
Definition solution_of (con : lines) (x y : nat -> R) : Prop := y = distribute con x.
(** both pure phases are well away: the values are not +-1 up to 1e-10 in the sum over the cell *)
Definition in_transition (U : nat -> R) (c : ecell) : Prop := 1 / 10000000000 <= suml (e_pts c) (fun p => Rabs (val U c p * val U c p - 1)).

(** ** Lemmas *)
Lemma e_value_val c p U : e_value c p U = val U c p.
Proof. unfold e_value, val. apply sumn_ext. intros; ring. Qed.
Lemma e_gradient_grad c p U d : e_gradient c p U d = grad U c p d.
Proof. unfold e_gradient, grad. apply sumn_ext. intros; ring. Qed.
Lemma distribute_expand con x h : distribute con x h = suml (expand con h) (fun cw => snd cw * x (fst cw)).
Proof. unfold distribute, expand. destruct (con h); [reflexivity|cbn; ring]. Qed.
Lemma distribute_fulfils con x : closed con -> fulfils con (distribute con x).
Proof.
  intros Hc i l E. unfold distribute at 1. rewrite E. apply suml_ext. intros [m w] Hm. cbn. unfold distribute. rewrite (Hc i l m w E Hm). reflexivity.
Qed.
Lemma vector_row_constrained con sys g : closed con -> is_free con g = false -> vector_row con sys g = 0.
Proof.
  intros Hc Hg. unfold vector_row. apply suml_zero. intros cb _. apply sumn_zero. intros a _. apply suml_zero. intros [m w] Hm. cbn [fst snd].
  destruct (Nat.eqb_spec m g) as [->|]; [|reflexivity]. exfalso. unfold is_free in Hg. unfold expand in Hm. destruct (con (e_dof (fst cb) a)) as [l|] eqn:E.
  - rewrite (Hc _ _ _ _ E Hm) in Hg. discriminate.
  - destruct Hm as [H|[]]. injection H as <- _. rewrite E in Hg. discriminate.
Qed.
Lemma matrix_row_constrained con diag sys x g : closed con -> is_free con g = false -> matrix_row con diag sys x g = diag g * x g.
Proof.
  intros Hc Hg. unfold matrix_row. rewrite Hg. rewrite suml_zero; [ring|]. intros cb _. apply sumn_zero. intros a _. apply suml_zero. intros [m w] Hm. cbn [fst snd].
  destruct (Nat.eqb_spec m g) as [->|]; [|reflexivity]. exfalso. unfold is_free in Hg. unfold expand in Hm. destruct (con (e_dof (fst cb) a)) as [l|] eqn:E.
  - rewrite (Hc _ _ _ _ E Hm) in Hg. discriminate.
  - destruct Hm as [H|[]]. injection H as <- _. rewrite E in Hg. discriminate.
Qed.
Lemma test_rows n con (sys : list (ecell * local_vector)) V : fulfils con V -> below n con (map fst sys) ->
  sumn n (fun g => V g * vector_row con sys g) = suml sys (fun cb => sumn (e_n (fst cb)) (fun a => V (e_dof (fst cb) a) * snd cb a)).
Proof.
  intros F B. unfold vector_row.
  rewrite (sumn_ext n _ (fun g => suml sys (fun cb => V g * sumn (e_n (fst cb)) (fun a => suml (expand con (e_dof (fst cb) a)) (fun rw => if Nat.eqb (fst rw) g then snd rw * snd cb a else 0))))) by (intros; rewrite suml_scal; reflexivity).
  rewrite <- suml_sumn. apply suml_ext. intros cb Hin.
  rewrite (sumn_ext n _ (fun g => sumn (e_n (fst cb)) (fun a => V g * suml (expand con (e_dof (fst cb) a)) (fun rw => if Nat.eqb (fst rw) g then snd rw * snd cb a else 0)))) by (intros; rewrite <- sumn_scal; reflexivity).
  rewrite sumn_swap. apply sumn_ext. intros a Ha. rewrite suml_delta_list.
  - rewrite expand_fulfils by exact F. ring.
  - intros mw Hmw. apply (B (fst cb) a mw); [apply in_map; exact Hin|exact Ha|exact Hmw].
Qed.
(** the assembled system is the local systems tested with all functions that fulfil the constraints *)
Lemma weak_form n con diag (A : list (ecell * local_matrix)) b x V : closed con -> fulfils con V ->
  below n con (map fst A) -> below n con (map fst b) -> solves_system n con diag (A, b) x ->
  suml A (fun cA => sumn (e_n (fst cA)) (fun a => V (e_dof (fst cA) a) * sumn (e_n (fst cA)) (fun j => snd cA a j * distribute con x (e_dof (fst cA) j)))) =
  suml b (fun cb => sumn (e_n (fst cb)) (fun a => V (e_dof (fst cb) a) * snd cb a)).
Proof.
  intros Hc F BA Bb H. rewrite <- (test_rows n con b V F Bb).
  rewrite (sumn_ext n _ (fun g => V g * (if is_free con g then matrix_row con diag A x g else 0))).
  2: { intros g Hg. destruct (is_free con g) eqn:E; [pose proof (H g Hg) as HH; cbn [fst snd] in HH; rewrite <- HH; reflexivity|]. rewrite vector_row_constrained by assumption. reflexivity. }
  set (W := map (fun cA => (fst cA, fun a => sumn (e_n (fst cA)) (fun j => snd cA a j * distribute con x (e_dof (fst cA) j)))) A).
  transitivity (sumn n (fun g => V g * vector_row con W g)).
  - rewrite test_rows; [|exact F|]. unfold W. rewrite suml_map. reflexivity. unfold W. rewrite map_map. exact BA.
  - apply sumn_ext. intros g Hg. f_equal. destruct (is_free con g) eqn:E.
    + unfold matrix_row. rewrite E, Rplus_0_l. unfold W, vector_row. rewrite suml_map. apply suml_ext. intros cA _. cbn [fst snd]. apply sumn_ext. intros a _.
      apply suml_ext. intros rw _. destruct (Nat.eqb (fst rw) g); [|reflexivity]. f_equal. apply sumn_ext. intros j _. rewrite distribute_expand. reflexivity.
    + rewrite vector_row_constrained by assumption. reflexivity.
Qed.
(** bilinear forms of a cell *)
Definition lin (c : ecell) (f : nat -> R) (V : nat -> R) : R := sumn (e_n c) (fun a => V (e_dof c a) * f a).
Lemma lin_rank_one c f g V Y k : sumn (e_n c) (fun a => V (e_dof c a) * sumn (e_n c) (fun j => f a * k * g j * Y (e_dof c j))) = k * lin c f V * lin c g Y.
Proof.
  unfold lin. rewrite (sumn_ext _ _ (fun a => V (e_dof c a) * f a * (k * sumn (e_n c) (fun j => Y (e_dof c j) * g j)))).
  - rewrite sumn_scal_r. ring.
  - intros a _. rewrite (sumn_ext (e_n c) _ (fun j => f a * k * (Y (e_dof c j) * g j))) by (intros; ring). rewrite sumn_scal. ring.
Qed.
Lemma lin_val c p V : lin c (e_shape p) V = val V c p.
Proof. reflexivity. Qed.
Lemma lin_dot dim c p n V : lin c (fun a => edot dim n (e_grad p a)) V = dot dim n (grad V c p).
Proof.
  unfold lin, edot, dot, grad. rewrite (sumn_ext (e_n c) _ (fun a => sumn dim (fun d => n d * (V (e_dof c a) * e_grad p a d)))) by (intros; rewrite <- sumn_scal; apply sumn_ext; intros; ring).
  rewrite sumn_swap. apply sumn_ext. intros d _. rewrite sumn_scal. reflexivity.
Qed.
Definition quadratic (c : ecell) (A : local_matrix) (V Y : nat -> R) : R :=
  sumn (e_n c) (fun a => V (e_dof c a) * sumn (e_n c) (fun j => A a j * Y (e_dof c j))).
Lemma quadratic_plus c A B V Y : quadratic c (fun i j => A i j + B i j) V Y = quadratic c A V Y + quadratic c B V Y.
Proof.
  unfold quadratic. rewrite <- sumn_plus. apply sumn_ext. intros a _.
  rewrite (sumn_ext (e_n c) (fun j => (A a j + B a j) * Y (e_dof c j)) (fun j => A a j * Y (e_dof c j) + B a j * Y (e_dof c j))) by (intros; ring). rewrite sumn_plus. ring.
Qed.
Lemma quadratic_sum {X} c (l : list X) (A : X -> local_matrix) V Y :
  quadratic c (fun i j => suml l (fun x => A x i j)) V Y = suml l (fun x => quadratic c (A x) V Y).
Proof.
  induction l as [|x l IH]; cbn [suml].
  - unfold quadratic. apply sumn_zero. intros a _. rewrite sumn_zero by (intros; ring). ring.
  - rewrite <- IH. rewrite <- quadratic_plus. reflexivity.
Qed.
Lemma quadratic_sumn c n (A : nat -> local_matrix) V Y :
  quadratic c (fun i j => sumn n (fun x => A x i j)) V Y = sumn n (fun x => quadratic c (A x) V Y).
Proof.
  induction n as [|n IH]; cbn [sumn].
  - unfold quadratic. apply sumn_zero. intros a _. rewrite sumn_zero by (intros; ring). ring.
  - rewrite <- IH. rewrite <- quadratic_plus. reflexivity.
Qed.
Lemma quadratic_ext c A B V Y : (forall i j, A i j = B i j) -> quadratic c A V Y = quadratic c B V Y.
Proof. intros H. unfold quadratic. apply sumn_ext. intros a _. f_equal. apply sumn_ext. intros j _. rewrite H. reflexivity. Qed.
Lemma quadratic_rank_one c f g V Y k : quadratic c (fun i j => f i * k * g j) V Y = k * lin c f V * lin c g Y.
Proof. apply lin_rank_one. Qed.
Lemma diffuse_form dim dtau D c p V Y : quadratic c (diffuse_entry dim dtau D p) V Y =
  e_JxW p * (val Y c p / dtau * val V c p + D * dot dim (grad Y c p) (grad V c p)).
Proof.
  rewrite (quadratic_ext c _ (fun i j => e_shape p i * (e_JxW p / dtau) * e_shape p j + sumn dim (fun d => e_grad p i d * (D * e_JxW p) * e_grad p j d))).
  - rewrite quadratic_plus, quadratic_rank_one, (quadratic_sumn c dim (fun d i j => e_grad p i d * (D * e_JxW p) * e_grad p j d)), !lin_val.
    rewrite (sumn_ext dim _ (fun d => D * e_JxW p * (grad Y c p d * grad V c p d))) by (intros; rewrite quadratic_rank_one; unfold lin, grad; ring).
    rewrite sumn_scal. unfold dot, Rdiv. ring.
  - intros i j. unfold diffuse_entry, edot. rewrite (sumn_ext dim (fun d => e_grad p i d * (D * e_JxW p) * e_grad p j d) (fun d => D * e_JxW p * (e_grad p i d * e_grad p j d))) by (intros; ring).
    rewrite sumn_scal. unfold Rdiv. ring.
Qed.
Lemma compress_form dim dtau D n c p V Y : quadratic c (compress_entry dim dtau D n p) V Y =
  e_JxW p * (val Y c p / dtau * val V c p + D * dot dim n (grad Y c p) * dot dim n (grad V c p)).
Proof.
  rewrite (quadratic_ext c _ (fun i j => e_shape p i * (e_JxW p / dtau) * e_shape p j + edot dim n (e_grad p i) * (D * e_JxW p) * edot dim n (e_grad p j))).
  - rewrite quadratic_plus, (quadratic_rank_one c (e_shape p) (e_shape p)), (quadratic_rank_one c (fun i => edot dim n (e_grad p i)) (fun i => edot dim n (e_grad p i))), !lin_val, !lin_dot. unfold Rdiv. ring.
  - intros i j. unfold compress_entry, Rdiv. ring.
Qed.
Lemma projection_form dim damping c V Y : quadratic c (projection_matrix dim damping c) V Y =
  suml (e_pts c) (fun p => e_JxW p * (val Y c p * val V c p + damping * dot dim (grad Y c p) (grad V c p))).
Proof.
  unfold projection_matrix. rewrite (quadratic_sum c (e_pts c) (fun p i j => (e_shape p i * e_shape p j + edot dim (e_grad p i) (e_grad p j) * damping) * e_JxW p)).
  apply suml_ext. intros p _.
  rewrite (quadratic_ext c _ (diffuse_entry dim 1 damping p)) by (intros; unfold diffuse_entry; unfold Rdiv; rewrite Rinv_1; ring). rewrite diffuse_form. unfold Rdiv. rewrite Rinv_1. f_equal. ring.
Qed.
Lemma lin_suml {X} c (l : list X) (f : X -> nat -> R) V : lin c (fun i => suml l (fun x => f x i)) V = suml l (fun x => lin c (f x) V).
Proof. unfold lin. rewrite (sumn_ext (e_n c) _ (fun a => suml l (fun x => V (e_dof c a) * f x a))) by (intros; rewrite suml_scal; reflexivity). rewrite suml_sumn. reflexivity. Qed.
Lemma lin_ext c f g V : (forall i, f i = g i) -> lin c f V = lin c g V.
Proof. intros H. unfold lin. apply sumn_ext. intros; rewrite H; reflexivity. Qed.
Lemma lin_scal c k f V : lin c (fun i => f i * k) V = k * lin c f V.
Proof. unfold lin. rewrite (sumn_ext (e_n c) _ (fun a => k * (V (e_dof c a) * f a))) by (intros; ring). rewrite sumn_scal. reflexivity. Qed.
Lemma edot_comm dim a b : edot dim a b = edot dim b a.
Proof. unfold edot. apply sumn_ext. intros; ring. Qed.
Lemma edot_grad dim n c p U : edot dim n (e_gradient c p U) = dot dim n (grad U c p).
Proof. unfold edot, dot. apply sumn_ext. intros; rewrite e_gradient_grad; reflexivity. Qed.
Lemma diffuse_load dim D c U p V : lin c (diffuse_rhs dim D c U p) V = e_JxW p * - (D * dot dim (grad U c p) (grad V c p)).
Proof.
  rewrite (lin_ext c _ (fun i => edot dim (grad U c p) (e_grad p i) * - (D * e_JxW p))).
  - rewrite lin_scal, lin_dot. ring.
  - intros i. unfold diffuse_rhs. rewrite edot_comm. unfold edot. rewrite (sumn_ext dim (fun d => e_gradient c p U d * e_grad p i d) (fun d => grad U c p d * e_grad p i d)) by (intros; rewrite e_gradient_grad; reflexivity). ring.
Qed.
Lemma compress_load dim D n c U p V : lin c (compress_rhs dim D n c U p) V =
  e_JxW p * ((1 / 2 * (1 - val U c p * val U c p) - D * dot dim n (grad U c p)) * dot dim n (grad V c p)).
Proof.
  rewrite (lin_ext c _ (fun i => edot dim n (e_grad p i) * ((1 / 2 * (1 - val U c p * val U c p) - D * dot dim n (grad U c p)) * e_JxW p))).
  - rewrite lin_scal, lin_dot. ring.
  - intros i. unfold compress_rhs. rewrite e_value_val, edot_grad. ring.
Qed.
Definition get {B} (d : B) (o : option B) : B := match o with Some y => y | None => d end.
Lemma all_some_map {A B} (f : A -> option B) d l t : all_some f l = Some t ->
  t = map (fun x => (x, get d (f x))) l /\ forall x, In x l -> exists y, f x = Some y.
Proof.
  revert t. induction l as [|x l IH]; cbn; intros t H; [injection H as <-; split; [reflexivity|intros ? []]|].
  destruct (f x) as [y|] eqn:E; [|discriminate]. destruct (all_some f l) as [t'|]; [|discriminate]. injection H as <-. destruct (IH t' eq_refl) as [-> H2]. split.
  - cbn. rewrite ?E. reflexivity.
  - intros z [<-|Hz]; eauto.
Qed.
Lemma all_some_none {A B} (f : A -> option B) l x : In x l -> f x = None -> all_some f l = None.
Proof.
  induction l as [|z l IH]; cbn; [intros []|]. intros [<-|H] E; [rewrite E; reflexivity|]. rewrite (IH H E). destruct (f z); reflexivity.
Qed.
Lemma all_some_total {A B} (f : A -> option B) l : (forall x, In x l -> f x <> None) -> all_some f l <> None.
Proof.
  induction l as [|x l IH]; cbn; intros H; [discriminate|]. destruct (f x) eqn:E; [|exfalso; exact (H x (or_introl eq_refl) E)].
  destruct (all_some f l); [discriminate|]. intros _. apply IH; [intros; apply H; auto|reflexivity].
Qed.
Lemma edot_nonneg dim v : 0 <= edot dim v v.
Proof. unfold edot. apply sumn_nonneg. intros; nra. Qed.
Lemma unit_normal_direction dim v n : unit_normal dim v = Some n -> direction dim v n.
Proof.
  unfold unit_normal. destruct (Req_EM_T (edot dim v v) 0) as [|H]; [discriminate|]. intros E. injection E as <-. pose proof (edot_nonneg dim v) as P.
  assert (Q : 0 < sqrt (edot dim v v)) by (apply sqrt_lt_R0; lra). assert (S2 := sqrt_sqrt (edot dim v v) P). split.
  - unfold dot. rewrite (sumn_ext dim _ (fun d => / (edot dim v v) * (v d * v d))). rewrite sumn_scal. fold (edot dim v v). apply Rinv_l; exact H.
    intros d _. rewrite <- S2 at 3. field. lra.
  - exists (sqrt (edot dim v v)). split; [exact Q|]. intros d _. field. lra.
Qed.
Lemma constant_fulfils dim con cells k : sums_to_one dim con cells -> fulfils con (fun _ => k).
Proof. intros [_ H] i l E. rewrite (suml_ext l _ (fun mw => k * snd mw)) by (intros; ring). rewrite suml_scal, (H i l E). ring. Qed.
Lemma constant_val dim con cells k c p : sums_to_one dim con cells -> In c cells -> In p (e_pts c) -> val (fun _ => k) c p = k.
Proof. intros [H _] Hc Hp. unfold val. rewrite sumn_scal. rewrite (proj1 (H c p Hc Hp)). ring. Qed.
Lemma constant_grad dim con cells k c p d : sums_to_one dim con cells -> In c cells -> In p (e_pts c) -> (d < dim)%nat -> grad (fun _ => k) c p d = 0.
Proof. intros [H _] Hc Hp Hd. unfold grad. rewrite sumn_scal. rewrite (proj2 (H c p Hc Hp) d Hd). ring. Qed.
Lemma dot_zero_r dim a b : (forall d, (d < dim)%nat -> b d = 0) -> dot dim a b = 0.
Proof. intros H. unfold dot. apply sumn_zero. intros d Hd. rewrite (H d Hd). ring. Qed.

Lemma over_zero cells f : (forall c p, In c cells -> In p (e_pts c) -> 0 <= e_JxW p * f c p) -> over cells f = 0 ->
  forall c p, In c cells -> In p (e_pts c) -> e_JxW p * f c p = 0.
Proof.
  intros H E c p Hc Hp. unfold over in E. assert (E1 : suml (e_pts c) (fun p => e_JxW p * f c p) = 0).
  { revert c Hc Hp. intros c Hc _. apply (suml_nonneg_zero cells (fun c => suml (e_pts c) (fun p => e_JxW p * f c p))); [|exact E|exact Hc]. intros c' Hc'. apply suml_nonneg. intros p' Hp'. apply H; assumption. }
  apply (suml_nonneg_zero (e_pts c) (fun p => e_JxW p * f c p)); [|exact E1|exact Hp]. intros p' Hp'. apply H; assumption.
Qed.

(** ** C94 *)
(** the cells on which only diffusion acts *)
Definition diffusive (diffuse_only : bool) (U : nat -> R) (c : ecell) : bool := diffuse_only || disable_convection diffuse_only U c.
Theorem C94_which_cells : forall diffuse_only U c, diffusive diffuse_only U c = true <-> diffuse_only = true \/ ~ in_transition U c.
Proof.
  intros [] U c; unfold diffusive, disable_convection, in_transition; cbn; [tauto|].
  rewrite (suml_ext (e_pts c) (fun p => Rabs (e_value c p U * e_value c p U - 1)) (fun p => Rabs (val U c p * val U c p - 1))) by (intros; rewrite e_value_val; reflexivity).
  destruct (Rlt_dec _ _); split; intros H; try tauto; try discriminate.
  - right. lra.
  - destruct H as [H|H]; [discriminate|]. exfalso. apply H. lra.
Qed.
(** the weak form of a step, for every test function that fulfils the constraints *)
Theorem C94_weak_form : forall n dim con diag eps dtau diffuse_only cells U N sys x,
  closed con -> below n con cells -> reinit_systems dim eps dtau diffuse_only cells U N = Some sys -> solves_system n con diag sys x ->
  exists normal : ecell -> epoint -> nat -> R,
    (forall c p, In c cells -> In p (e_pts c) -> diffusive diffuse_only U c = false -> direction dim (fun d => val (fun g => N g d) c p) (normal c p)) /\
    forall V, fulfils con V -> let y := distribute con x in let D := diffusion_m dim eps in
    over cells (fun c p => val y c p / dtau * val V c p +
      (if diffusive diffuse_only U c then D c * dot dim (grad y c p) (grad V c p)
       else D c * dot dim (normal c p) (grad y c p) * dot dim (normal c p) (grad V c p))) =
    over cells (fun c p =>
      if diffusive diffuse_only U c then - (D c * dot dim (grad U c p) (grad V c p))
      else (1 / 2 * (1 - val U c p * val U c p) - D c * dot dim (normal c p) (grad U c p)) * dot dim (normal c p) (grad V c p)).
Proof.
  intros n dim con diag eps dtau diffuse_only cells U N sys x Hc HB HS Hx. unfold reinit_systems in HS.
  destruct (all_some (reinit_cell dim eps dtau diffuse_only U N) cells) as [l|] eqn:E; [|discriminate]. injection HS as <-.
  destruct (all_some_map _ ((fun _ _ => 0), (fun _ => 0)) _ _ E) as [El Hall].
  exists (fun c p => get (fun _ => 0) (unit_normal dim (e_normal c p N))). split.
  - intros c p Hin Hp Hd. destruct (Hall c Hin) as [r Hr]. unfold reinit_cell in Hr. cbv zeta in Hr. fold (diffusive diffuse_only U c) in Hr. rewrite Hd in Hr.
    destruct (all_some _ (e_pts c)) as [pn|] eqn:Ep; [|discriminate]. destruct (all_some_map _ (fun _ => 0) _ _ Ep) as [_ Hn]. destruct (Hn p Hp) as [y Hy].
    rewrite Hy. cbn. apply unit_normal_direction in Hy. destruct Hy as [H1 (s & Hs & H2)]. split; [exact H1|]. exists s. split; [exact Hs|]. intros d Hd'. rewrite <- (H2 d Hd').
    unfold e_normal. rewrite e_value_val. reflexivity.
  - intros V F y D. pose proof (weak_form n con diag (map (fun x => (fst x, fst (snd x))) l) (map (fun x => (fst x, snd (snd x))) l) x V Hc F) as W.
    assert (Bl : map (fun x => fst x) l = cells) by (rewrite El, map_map; cbn; apply map_id).
    rewrite !map_map in W. cbn [fst] in W. rewrite Bl in W. specialize (W HB HB Hx). rewrite !suml_map in W. cbn [fst snd] in W. rewrite El in W. rewrite !suml_map in W. cbn [fst snd] in W.
    unfold over. transitivity (suml cells (fun c => quadratic c (fst (get (fun _ _ => 0, fun _ => 0) (reinit_cell dim eps dtau diffuse_only U N c))) V y)).
    + apply suml_ext. intros c Hin. destruct (Hall c Hin) as [r Hr]. rewrite Hr. cbn [get]. unfold reinit_cell in Hr. cbv zeta in Hr. fold (diffusive diffuse_only U c) in Hr.
      destruct (diffusive diffuse_only U c).
      * injection Hr as <-. cbn [fst]. rewrite (quadratic_sum c (e_pts c) (fun p i j => diffuse_entry dim dtau (diffusion_m dim eps c) p i j)). apply suml_ext. intros p _.
        symmetry. apply diffuse_form.
      * destruct (all_some _ (e_pts c)) as [pn|] eqn:Ep; [|discriminate]. injection Hr as <-. cbn [fst]. destruct (all_some_map _ (fun _ => 0) _ _ Ep) as [Epn _].
        rewrite (quadratic_sum c pn (fun x i j => compress_entry dim dtau (diffusion_m dim eps c) (snd x) (fst x) i j)), Epn, suml_map. cbn [fst snd]. apply suml_ext. intros p _.
        symmetry. apply compress_form.
    + etransitivity; [exact W|]. apply suml_ext. intros c Hin. destruct (Hall c Hin) as [r Hr]. rewrite Hr. cbn [get]. unfold reinit_cell in Hr. cbv zeta in Hr. fold (diffusive diffuse_only U c) in Hr.
      change (lin c (snd r) V = suml (e_pts c) (fun p => e_JxW p * (if diffusive diffuse_only U c then - (D c * dot dim (grad U c p) (grad V c p))
        else (1 / 2 * (1 - val U c p * val U c p) - D c * dot dim (get (fun _ => 0) (unit_normal dim (e_normal c p N))) (grad U c p)) * dot dim (get (fun _ => 0) (unit_normal dim (e_normal c p N))) (grad V c p)))).
      destruct (diffusive diffuse_only U c).
      * injection Hr as <-. cbn [snd]. rewrite (lin_suml c (e_pts c) (fun p i => diffuse_rhs dim (diffusion_m dim eps c) c U p i)). apply suml_ext. intros p _. apply diffuse_load.
      * destruct (all_some _ (e_pts c)) as [pn|] eqn:Ep; [|discriminate]. injection Hr as <-. cbn [snd]. destruct (all_some_map _ (fun _ => 0) _ _ Ep) as [Epn _].
        rewrite (lin_suml c pn (fun x i => compress_rhs dim (diffusion_m dim eps c) (snd x) c U (fst x) i)), Epn, suml_map. cbn [fst snd]. apply suml_ext. intros p _. apply compress_load.
Qed.
(** every defined step keeps the integral of the level set function *)
Theorem C94_conservation : forall n dim con diag eps dtau diffuse_only cells U N sys x,
  closed con -> below n con cells -> sums_to_one dim con cells -> dtau <> 0 ->
  reinit_systems dim eps dtau diffuse_only cells U N = Some sys -> solves_system n con diag sys x ->
  over cells (val (reinit_result con x U)) = over cells (val U).
Proof.
  intros n dim con diag eps dtau diffuse_only cells U N sys x Hc HB H1 Hd HS Hx.
  destruct (C94_weak_form n dim con diag eps dtau diffuse_only cells U N sys x Hc HB HS Hx) as (nn & _ & W).
  specialize (W (fun _ => 1) (constant_fulfils dim con cells 1 H1)). cbv zeta in W.
  assert (Z : over cells (val (distribute con x)) = 0).
  { assert (L : over cells (fun c p => / dtau * val (distribute con x) c p) = 0).
    - transitivity (over cells (fun c p => val (distribute con x) c p / dtau * val (fun _ => 1) c p +
        (if diffusive diffuse_only U c then diffusion_m dim eps c * dot dim (grad (distribute con x) c p) (grad (fun _ => 1) c p)
         else diffusion_m dim eps c * dot dim (nn c p) (grad (distribute con x) c p) * dot dim (nn c p) (grad (fun _ => 1) c p)))).
      + unfold over. apply suml_ext. intros c Hin. apply suml_ext. intros p Hp. rewrite (constant_val dim con cells 1 c p) by assumption.
        rewrite !(dot_zero_r dim _ (grad (fun _ => 1) c p)) by (intros d Hd'; apply (constant_grad dim con cells 1 c p d); assumption). unfold Rdiv. destruct (diffusive diffuse_only U c); ring.
      + rewrite W. unfold over. apply suml_zero. intros c Hin. apply suml_zero. intros p Hp.
        rewrite !(dot_zero_r dim _ (grad (fun _ => 1) c p)) by (intros d Hd'; apply (constant_grad dim con cells 1 c p d); assumption). destruct (diffusive diffuse_only U c); ring.
    - assert (E : over cells (fun c p => / dtau * val (distribute con x) c p) = / dtau * over cells (val (distribute con x))).
      { unfold over. rewrite <- suml_scal. apply suml_ext. intros c _. rewrite <- suml_scal. apply suml_ext. intros p _. ring. }
      rewrite E in L. apply Rmult_integral in L as [L|L]; [|exact L]. exfalso. apply (Rinv_neq_0_compat dtau Hd). exact L. }
  transitivity (over cells (val U) + over cells (val (distribute con x))); [|rewrite Z; ring].
  unfold over. rewrite <- suml_plus. apply suml_ext. intros c _. rewrite <- suml_plus. apply suml_ext. intros p _.
  unfold val, reinit_result. rewrite <- Rmult_plus_distr_l, <- sumn_plus. f_equal. apply sumn_ext. intros; ring.
Qed.
(** a purely diffusive step does not increase the energy, for any step length *)
Theorem C94_diffusion_stable : forall n dim con diag eps dtau cells U N sys x,
  closed con -> below n con cells -> fulfils con U -> positive_weights cells -> 0 < dtau -> 0 < eps ->
  reinit_systems dim eps dtau true cells U N = Some sys -> solves_system n con diag sys x ->
  over cells (fun c p => val (reinit_result con x U) c p * val (reinit_result con x U) c p) <= over cells (fun c p => val U c p * val U c p).
Proof.
  intros n dim con diag eps dtau cells U N sys x Hc HB FU HP Hd He HS Hx.
  destruct (C94_weak_form n dim con diag eps dtau true cells U N sys x Hc HB HS Hx) as (nn & _ & W).
  set (y := distribute con x) in *. set (V := reinit_result con x U). assert (FV : fulfils con V).
  { intros i l E. unfold V, reinit_result. fold y. rewrite (FU i l E). rewrite (distribute_fulfils con x Hc i l E : y i = _). rewrite <- suml_plus. apply suml_ext. intros; unfold y; ring. }
  specialize (W V FV). cbv zeta in W. fold y in W. cbn [diffusive orb] in W.
  assert (Vv : forall c p, val V c p = val U c p + val y c p). { intros. unfold V, reinit_result, val. rewrite <- sumn_plus. apply sumn_ext. intros; unfold y; ring. }
  assert (Gv : forall c p d, grad V c p d = grad U c p d + grad y c p d). { intros. unfold V, reinit_result, grad. rewrite <- sumn_plus. apply sumn_ext. intros; unfold y; ring. }
  assert (K : over cells (fun c p => val y c p * val V c p) <= 0).
  { apply (Rmult_le_reg_l (/ dtau)); [apply Rinv_0_lt_compat; lra|]. rewrite Rmult_0_r.
    replace (/ dtau * over cells (fun c p => val y c p * val V c p)) with (- over cells (fun c p => diffusion_m dim eps c * dot dim (grad V c p) (grad V c p))).
    - assert (P : 0 <= over cells (fun c p => diffusion_m dim eps c * dot dim (grad V c p) (grad V c p))).
      { unfold over. apply suml_nonneg. intros c Hin. apply suml_nonneg. intros p Hp. pose proof (HP c p Hin Hp). apply Rmult_le_pos; [lra|]. apply Rmult_le_pos.
        - unfold diffusion_m. pose proof (Rmax_l eps (e_diameter c / sqrt (INR dim))). lra.
        - apply edot_nonneg. }
      lra.
    - assert (E : over cells (fun c p => val y c p / dtau * val V c p + diffusion_m dim eps c * dot dim (grad y c p) (grad V c p)) =
        / dtau * over cells (fun c p => val y c p * val V c p) + over cells (fun c p => diffusion_m dim eps c * dot dim (grad y c p) (grad V c p))).
      { unfold over. rewrite <- suml_scal, <- suml_plus. apply suml_ext. intros c _. rewrite <- suml_scal, <- suml_plus. apply suml_ext. intros p _. unfold Rdiv. ring. }
      rewrite E in W. assert (E2 : over cells (fun c p => diffusion_m dim eps c * dot dim (grad V c p) (grad V c p)) =
        over cells (fun c p => diffusion_m dim eps c * dot dim (grad y c p) (grad V c p)) - over cells (fun c p => - (diffusion_m dim eps c * dot dim (grad U c p) (grad V c p)))).
      { unfold over. rewrite <- suml_minus. apply suml_ext. intros c _. rewrite <- suml_minus. apply suml_ext. intros p _.
        replace (dot dim (grad V c p) (grad V c p)) with (dot dim (grad U c p) (grad V c p) + dot dim (grad y c p) (grad V c p)); [ring|].
        unfold dot. rewrite <- sumn_plus. apply sumn_ext. intros d _. rewrite (Gv c p d). ring. }
      rewrite E2. lra. }
  assert (Q : over cells (fun c p => val V c p * val V c p) - over cells (fun c p => val U c p * val U c p) <= 2 * over cells (fun c p => val y c p * val V c p)).
  { unfold over. rewrite <- suml_minus, <- suml_scal. apply Rminus_le. rewrite <- suml_minus. apply Ropp_le_cancel. rewrite Ropp_0, <- suml_opp. apply suml_nonneg. intros c Hin.
    rewrite <- suml_minus, <- suml_scal, <- suml_minus, <- suml_opp. apply suml_nonneg. intros p Hp. pose proof (HP c p Hin Hp). rewrite Vv. nra. }
  fold V. lra.
Qed.
(** pure phases stay: if the level set is everywhere 1 or everywhere -1, the step is defined whatever the normals, and changes nothing
    at any point *)
Theorem C94_pure_phase : forall n dim con diag eps dtau diffuse_only cells U N k,
  closed con -> below n con cells -> sums_to_one dim con cells -> positive_weights cells -> 0 < dtau -> 0 < eps ->
  k * k = 1 -> (forall g, U g = k) ->
  exists sys, reinit_systems dim eps dtau diffuse_only cells U N = Some sys /\
  forall x, solves_system n con diag sys x -> forall c p, In c cells -> In p (e_pts c) -> val (reinit_result con x U) c p = k.
Proof.
  intros n dim con diag eps dtau diffuse_only cells U N k Hc HB H1 HP Hd He Hk HU.
  assert (EU : U = fun _ => k) by (apply functional_extensionality; exact HU).
  assert (HD : forall c, In c cells -> diffusive diffuse_only U c = true).
  { intros c Hin. apply C94_which_cells. right. unfold in_transition. rewrite suml_zero; [lra|]. intros p Hp. rewrite EU, (constant_val dim con cells k c p) by assumption. rewrite Hk. replace (1 - 1) with 0 by ring. apply Rabs_R0. }
  destruct (reinit_systems dim eps dtau diffuse_only cells U N) as [sys|] eqn:ES.
  2: { exfalso. unfold reinit_systems in ES. destruct (all_some _ cells) eqn:E; [discriminate|]. revert E. apply all_some_total. intros c Hin. unfold reinit_cell. cbv zeta.
       fold (diffusive diffuse_only U c). rewrite (HD c Hin). discriminate. }
  exists sys. split; [reflexivity|]. intros x Hx.
  destruct (C94_weak_form n dim con diag eps dtau diffuse_only cells U N sys x Hc HB ES Hx) as (nn & _ & W).
  specialize (W (distribute con x) (distribute_fulfils con x Hc)). cbv zeta in W. set (y := distribute con x) in *.
  assert (Z : forall c p, In c cells -> In p (e_pts c) -> val y c p = 0).
  { assert (S0 : over cells (fun c p => val y c p / dtau * val y c p + diffusion_m dim eps c * dot dim (grad y c p) (grad y c p)) = 0).
    { transitivity (over cells (fun c p => val y c p / dtau * val y c p +
        (if diffusive diffuse_only U c then diffusion_m dim eps c * dot dim (grad y c p) (grad y c p)
         else diffusion_m dim eps c * dot dim (nn c p) (grad y c p) * dot dim (nn c p) (grad y c p)))).
      - unfold over. apply suml_ext. intros c Hin. apply suml_ext. intros p _. rewrite (HD c Hin). reflexivity.
      - rewrite W. unfold over. apply suml_zero. intros c Hin. apply suml_zero. intros p Hp. rewrite (HD c Hin).
        replace (dot dim (grad U c p) (grad y c p)) with 0; [ring|]. symmetry. unfold dot. apply sumn_zero. intros d Hd'. rewrite EU, (constant_grad dim con cells k c p d) by assumption. ring. }
    intros c p Hin Hp. assert (NN : forall c p, In c cells -> In p (e_pts c) -> 0 <= e_JxW p * (val y c p / dtau * val y c p) /\ 0 <= e_JxW p * (diffusion_m dim eps c * dot dim (grad y c p) (grad y c p))).
    { intros c' p' Hc' Hp'. pose proof (HP c' p' Hc' Hp'). split.
      - apply Rmult_le_pos; [lra|]. replace (val y c' p' / dtau * val y c' p') with (/ dtau * (val y c' p' * val y c' p')) by (unfold Rdiv; ring). apply Rmult_le_pos; [apply Rlt_le, Rinv_0_lt_compat; lra|nra].
      - apply Rmult_le_pos; [lra|]. apply Rmult_le_pos; [unfold diffusion_m; pose proof (Rmax_l eps (e_diameter c' / sqrt (INR dim))); lra|apply edot_nonneg]. }
    assert (S2 := over_zero cells _ (fun c' p' Hc' Hp' => let H := NN c' p' Hc' Hp' in eq_ind_r (fun r => 0 <= r) (Rplus_le_le_0_compat _ _ (proj1 H) (proj2 H)) (Rmult_plus_distr_l _ _ _)) S0 c p Hin Hp).
    destruct (NN c p Hin Hp) as [N1 N2]. cbv beta in S2. rewrite Rmult_plus_distr_l in S2. assert (N3 : e_JxW p * (val y c p / dtau * val y c p) = 0) by lra.
    pose proof (HP c p Hin Hp) as HJ. apply Rmult_integral in N3 as [N3|N3]; [lra|]. unfold Rdiv in N3. apply Rmult_integral in N3 as [N3|N3]; [|exact N3].
    apply Rmult_integral in N3 as [N3|N3]; [exact N3|]. exfalso. apply (Rinv_neq_0_compat dtau); [lra|exact N3]. }
  intros c p Hin Hp. transitivity (val U c p + val y c p).
  - unfold val, reinit_result. rewrite <- sumn_plus. apply sumn_ext. intros; unfold y; ring.
  - rewrite (Z c p Hin Hp), EU, (constant_val dim con cells k c p) by assumption. ring.
Qed.
(** pseudo-time step: 0.3 times the smaller of mesh size and time step *)
Theorem C94_pseudo_time_step : forall eps sub h dt, 0 < eps -> 0 < sub -> 0 < h -> 0 < dt ->
  let dtau := dtau_m (epsilon_used_of eps sub h) eps dt in
  0 < dtau /\ dtau <= 3/10 * dt /\ dtau <= 3/10 * (h / sub) /\ (dtau = 3/10 * dt \/ dtau = 3/10 * (h / sub)).
Proof.
  intros eps sub h dt He Hs Hh Hd dtau. assert (E : epsilon_used_of eps sub h / eps = h / sub) by (unfold epsilon_used_of; field; split; lra).
  unfold dtau, dtau_m. rewrite E. assert (0 < h / sub) by (apply Rmult_lt_0_compat; [lra|apply Rinv_0_lt_compat; lra]).
  unfold Rmin. destruct (Rle_dec (h / sub) dt); repeat split; lra.
Qed.
(** Violated: the step is undefined (0/0, all values become NaN) as soon as the normal field vanishes at one point of a cell in the
    transition region *)
Theorem C94_violation_zero_normal : forall dim eps dtau cells U N c p,
  In c cells -> In p (e_pts c) -> in_transition U c -> (forall d, (d < dim)%nat -> val (fun g => N g d) c p = 0) ->
  reinit_systems dim eps dtau false cells U N = None.
Proof.
  intros dim eps dtau cells U N c p Hc Hp HT HN. unfold reinit_systems. rewrite (all_some_none _ cells c Hc); [reflexivity|]. unfold reinit_cell. cbv zeta.
  fold (diffusive false U c). destruct (diffusive false U c) eqn:E.
  - apply C94_which_cells in E as [E|E]; [discriminate|contradiction].
  - rewrite (all_some_none _ (e_pts c) p Hp); [reflexivity|]. unfold unit_normal. destruct (Req_EM_T _ 0) as [|H]; [reflexivity|]. exfalso. apply H.
    unfold edot. apply sumn_zero. intros d Hd. unfold e_normal. rewrite e_value_val, (HN d Hd). ring.
Qed.
(** and defined otherwise *)
Theorem C94_defined_partial : forall dim eps dtau diffuse_only cells U N,
  (forall c p, In c cells -> In p (e_pts c) -> diffusive diffuse_only U c = false -> exists d, (d < dim)%nat /\ val (fun g => N g d) c p <> 0) ->
  reinit_systems dim eps dtau diffuse_only cells U N <> None.
Proof.
  intros dim eps dtau diffuse_only cells U N H. unfold reinit_systems. destruct (all_some _ cells) eqn:E; [discriminate|]. exfalso. revert E. apply all_some_total. intros c Hin.
  unfold reinit_cell. cbv zeta. fold (diffusive diffuse_only U c). destruct (diffusive diffuse_only U c) eqn:ED; [discriminate|].
  destruct (all_some _ (e_pts c)) eqn:E; [discriminate|]. exfalso. revert E. apply all_some_total. intros p Hp. unfold unit_normal. destruct (Req_EM_T _ 0) as [Z|]; [|discriminate].
  destruct (H c p Hin Hp ED) as (d & Hd & Hv). exfalso. apply Hv. unfold edot in Z. assert (Q := sumn_nonneg_zero dim (fun d => e_normal c p N d * e_normal c p N d) (fun i _ => Rle_0_sqr (e_normal c p N i)) Z d Hd). cbv beta in Q.
  unfold e_normal in Q. rewrite e_value_val in Q. apply Rmult_integral in Q. tauto.
Qed.
(** Violated: the profile set up at the beginning, -tanh(d / (2 epsilon_used)), is no equilibrium: with less relative width epsilon than
    subdivisions on a mesh of squares or cubes of side h, the flux at every point is (1 - subdivisions / epsilon) times the compressive one *)
Theorem C94_violation_width : forall dim eps sub h c, (0 < dim)%nat -> 0 < eps -> eps < sub -> 0 < h -> e_diameter c = h * sqrt (INR dim) ->
  let e := epsilon_used_of eps sub h in
  diffusion_m dim e c = h /\
  forall d l, derivable_pt_lim (ls_transform e) d l ->
    1 / 2 * (1 - ls_transform e d * ls_transform e d) - diffusion_m dim e c * - l = (1 - sub / eps) * (1 / 2 * (1 - ls_transform e d * ls_transform e d)) /\
    1 - sub / eps < 0.
Proof.
  intros dim eps sub h c Hdim He Hs Hh Hdiam e. assert (P : 0 < INR dim) by (apply lt_0_INR; exact Hdim). assert (PS : 0 < sqrt (INR dim)) by (apply sqrt_lt_R0; exact P).
  assert (ED : diffusion_m dim e c = h).
  { unfold diffusion_m. rewrite Hdiam. replace (h * sqrt (INR dim) / sqrt (INR dim)) with h by (field; lra). apply Rmax_right. unfold e, epsilon_used_of.
    assert (eps / sub < 1) by (apply (Rmult_lt_reg_r sub); [lra|]; unfold Rdiv; rewrite Rmult_assoc, Rinv_l, Rmult_1_r, Rmult_1_l by lra; exact Hs). nra. }
  split; [exact ED|]. intros d l HL. rewrite ED. assert (Pe : 0 < e) by (unfold e, epsilon_used_of; apply Rmult_lt_0_compat; [apply Rmult_lt_0_compat; [lra|apply Rinv_0_lt_compat; lra]|lra]).
  rewrite (uniqueness_limite _ _ _ _ HL (C68_level_set_slope e d Pe)). split.
  - set (q := ls_transform e d). clearbody q. unfold e, epsilon_used_of. field. repeat split; lra.
  - assert (1 < sub / eps); [|lra]. apply (Rmult_lt_reg_r eps); [lra|]. unfold Rdiv. rewrite Rmult_assoc, Rinv_l by lra. lra.
Qed.
Print Assumptions C94_which_cells.
Print Assumptions C94_weak_form.
Print Assumptions C94_conservation.
Print Assumptions C94_diffusion_stable.
Print Assumptions C94_pure_phase.
Print Assumptions C94_pseudo_time_step.
Print Assumptions C94_violation_zero_normal.
Print Assumptions C94_defined_partial.
Print Assumptions C94_violation_width.

(** ** C95 *)
(** contract of FEValues: the first cell is new; a cell reported as translation has the same shape functions and weights as the one before *)
Fixpoint translations (prev : option ecell) (cells : list ecell) : Prop :=
  match cells with
  | [] => True
  | c :: rest => (e_similar c = true -> exists b, prev = Some b /\ e_pts c = e_pts b) /\ translations (Some c) rest
  end.
Lemma projection_cells_spec dim damping prev A cells : translations prev cells -> (forall b, prev = Some b -> A = projection_matrix dim damping b) ->
  projection_cells dim damping A cells = map (fun c => (c, projection_matrix dim damping c)) cells.
Proof.
  revert prev A. induction cells as [|c rest IH]; intros prev A HT HA; [reflexivity|]. destruct HT as [H1 H2]. cbn [projection_cells map]. cbv zeta.
  assert (E : (if e_similar c then A else projection_matrix dim damping c) = projection_matrix dim damping c).
  { destruct (e_similar c); [|reflexivity]. destruct (H1 eq_refl) as (b & Eb & Ep). rewrite (HA b Eb). unfold projection_matrix. rewrite Ep. reflexivity. }
  rewrite E. f_equal. apply (IH (Some c)); [exact H2|]. intros b Eb. injection Eb as <-. reflexivity.
Qed.
(** smoothing lengths in units of the size of a subelement: 2 for normals and 1/sqrt 2 for the curvature, 4 and 2 on anisotropic meshes *)
Theorem C95_smoothing_length : forall eps sub h, 0 < eps -> 0 < sub -> 0 < h -> let l := h / sub in
  (forall a, 0 < normal_damping_m a (epsilon_used_of eps sub h) eps /\ 0 < curvature_damping_m a (epsilon_used_of eps sub h) eps) /\
  normal_damping_m false (epsilon_used_of eps sub h) eps = (2 * l) ^ 2 /\ curvature_damping_m false (epsilon_used_of eps sub h) eps = l ^ 2 / 2 /\
  normal_damping_m true (epsilon_used_of eps sub h) eps = (4 * l) ^ 2 /\ curvature_damping_m true (epsilon_used_of eps sub h) eps = (2 * l) ^ 2.
Proof.
  intros eps sub h He Hs Hh l. assert (E : epsilon_used_of eps sub h / eps = l) by (unfold epsilon_used_of, l; field; split; lra).
  assert (0 < l) by (unfold l; apply Rmult_lt_0_compat; [lra|apply Rinv_0_lt_compat; lra]). clearbody l. unfold normal_damping_m, curvature_damping_m. rewrite E. clear E. repeat split.
  - destruct a; nra.
  - destruct a; nra.
  - field.
  - field.
  - field.
  - field.
Qed.
(** keeping the matrix of the previous cell changes nothing *)
Theorem C95_reused_matrices : forall dim damping cells, translations None cells ->
  projection_cells dim damping (fun _ _ => 0) cells = map (fun c => (c, projection_matrix dim damping c)) cells.
Proof. intros. apply (projection_cells_spec dim damping None); [assumption|discriminate]. Qed.
Lemma projection_weak n dim con diag damping cells (b : ecell -> local_vector) x V :
  closed con -> below n con cells -> translations None cells -> fulfils con V ->
  solves_system n con diag (projection_cells dim damping (fun _ _ => 0) cells, map (fun c => (c, b c)) cells) x ->
  over cells (fun c p => val (distribute con x) c p * val V c p + damping * dot dim (grad (distribute con x) c p) (grad V c p)) =
  suml cells (fun c => lin c (b c) V).
Proof.
  intros Hc HB HT F Hx. rewrite (C95_reused_matrices dim damping cells HT) in Hx. pose proof (weak_form n con diag (map (fun c => (c, projection_matrix dim damping c)) cells) (map (fun c => (c, b c)) cells) x V Hc F) as W.
  assert (M : forall {X} (f : ecell -> X), map fst (map (fun c => (c, f c)) cells) = cells) by (intros X f; rewrite map_map; cbn [fst]; apply map_id).
  specialize (W (ltac:(rewrite M; exact HB)) (ltac:(rewrite M; exact HB)) Hx). rewrite !suml_map in W. cbn [fst snd] in W. unfold lin. etransitivity; [|exact W]. clear W.
  unfold over. apply suml_ext. intros c _. rewrite <- projection_form. reflexivity.
Qed.
(** component d of the normal field solves (n, v) + damping (grad n, grad v) = (d-th derivative of the level set, v) *)
Theorem C95_normal_weak_form : forall n dim con diag damping cells U d x V,
  closed con -> below n con cells -> translations None cells -> fulfils con V ->
  solves_system n con diag (normal_systems dim damping cells U d) x -> let y := distribute con x in
  over cells (fun c p => val y c p * val V c p + damping * dot dim (grad y c p) (grad V c p)) = over cells (fun c p => grad U c p d * val V c p).
Proof.
  intros n dim con diag damping cells U d x V Hc HB HT F Hx y. unfold y. rewrite (projection_weak n dim con diag damping cells (fun c => normal_vector c U d) x V) by assumption.
  unfold over. apply suml_ext. intros c _. unfold normal_vector. rewrite (lin_suml c (e_pts c) (fun p i => e_shape p i * e_gradient c p U d * e_JxW p)). apply suml_ext. intros p _.
  rewrite (lin_ext c _ (fun i => e_shape p i * (grad U c p d * e_JxW p))) by (intros; rewrite e_gradient_grad; ring). rewrite lin_scal, lin_val. ring.
Qed.
(** the curvature solves (k, v) + damping (grad k, grad v) = (n, grad v) with the normalized normals *)
Theorem C95_curvature_weak_form : forall n dim con diag damping cells N x V,
  closed con -> below n con cells -> translations None cells -> fulfils con V ->
  solves_system n con diag (curvature_systems dim damping cells N) x -> let y := distribute con x in
  over cells (fun c p => val y c p * val V c p + damping * dot dim (grad y c p) (grad V c p)) =
  over cells (fun c p => dot dim (curvature_normal dim (fun d => val (fun g => N g d) c p)) (grad V c p)).
Proof.
  intros n dim con diag damping cells N x V Hc HB HT F Hx y. unfold y. rewrite (projection_weak n dim con diag damping cells (fun c => curvature_vector dim c N) x V) by assumption.
  unfold over. apply suml_ext. intros c _. unfold curvature_vector.
  rewrite (lin_suml c (e_pts c) (fun p i => edot dim (e_grad p i) (curvature_normal dim (e_normal c p N)) * e_JxW p)). apply suml_ext. intros p _.
  rewrite lin_scal. f_equal. replace (fun d => val (fun g => N g d) c p) with (e_normal c p N) by (apply functional_extensionality; intros d; unfold e_normal; apply e_value_val).
  rewrite <- lin_dot. apply lin_ext. intros i. apply edot_comm.
Qed.
(** the normals used are never longer than one, are unit vectors above the threshold, and always have the direction of the field *)
Theorem C95_unit_normals : forall dim v, let n := curvature_normal dim v in
  dot dim n n <= 1 /\ (1 / 100000000 < sqrt (dot dim v v) -> dot dim n n = 1) /\ exists s, 0 < s /\ forall d, n d = s * v d.
Proof.
  intros dim v n. pose proof (edot_nonneg dim v) as P. pose proof (sqrt_sqrt _ P) as S2. pose proof (sqrt_pos (edot dim v v)) as SP.
  assert (SC : forall s, dot dim (fun d => s * v d) (fun d => s * v d) = s * s * edot dim v v).
  { intros s. unfold dot, edot. rewrite <- sumn_scal. apply sumn_ext. intros; ring. }
  unfold n. unfold curvature_normal at 1 2 3 4 5. change (dot dim v v) with (edot dim v v). destruct (Rlt_dec (1/100000000) (sqrt (edot dim v v))) as [L|L].
  - replace (fun d => v d / sqrt (edot dim v v)) with (fun d => / sqrt (edot dim v v) * v d) by (apply functional_extensionality; intros; unfold Rdiv; ring).
    assert (E : dot dim (fun d => / sqrt (edot dim v v) * v d) (fun d => / sqrt (edot dim v v) * v d) = 1). { rewrite SC. rewrite <- S2 at 3. field. lra. }
    split; [lra|]. split; [intros _; exact E|]. exists (/ sqrt (edot dim v v)). split; [apply Rinv_0_lt_compat; lra|]. intros d. unfold Rdiv. ring.
  - replace (fun d => v d * 100000000) with (fun d => 100000000 * v d) by (apply functional_extensionality; intros; ring). rewrite SC. split; [|split].
    + set (r := sqrt (edot dim v v)) in *. rewrite <- S2. assert (r <= 1 / 100000000) by lra. clearbody r. nra.
    + intros; contradiction.
    + exists 100000000. split; [lra|]. intros; ring.
Qed.
(** integrals: the normals keep the integral of the gradient *)
Theorem C95_total_normal : forall n dim con diag damping cells U d x,
  closed con -> below n con cells -> translations None cells -> sums_to_one dim con cells ->
  solves_system n con diag (normal_systems dim damping cells U d) x ->
  over cells (val (distribute con x)) = over cells (fun c p => grad U c p d).
Proof.
  intros n dim con diag damping cells U d x Hc HB HT H1 Hx.
  pose proof (C95_normal_weak_form n dim con diag damping cells U d x (fun _ => 1) Hc HB HT (constant_fulfils dim con cells 1 H1) Hx) as W. cbv zeta in W.
  transitivity (over cells (fun c p => val (distribute con x) c p * val (fun _ => 1) c p + damping * dot dim (grad (distribute con x) c p) (grad (fun _ => 1) c p))).
  - unfold over. apply suml_ext. intros c Hin. apply suml_ext. intros p Hp. rewrite (constant_val dim con cells 1 c p) by assumption.
    rewrite (dot_zero_r dim _ (grad (fun _ => 1) c p)) by (intros d' Hd'; apply (constant_grad dim con cells 1 c p d'); assumption). ring.
  - rewrite W. unfold over. apply suml_ext. intros c Hin. apply suml_ext. intros p Hp. rewrite (constant_val dim con cells 1 c p) by assumption. ring.
Qed.
(** planar level set: exact normals at every point, whatever the damping *)
Lemma difference_zero n dim con damping cells (b : ecell -> epoint -> (nat -> R) -> R) x z :
  closed con -> below n con cells -> fulfils con z -> positive_weights cells -> 0 <= damping ->
  (forall V, fulfils con V -> over cells (fun c p => val (distribute con x) c p * val V c p + damping * dot dim (grad (distribute con x) c p) (grad V c p)) = over cells (fun c p => b c p V)) ->
  (forall V, fulfils con V -> over cells (fun c p => val z c p * val V c p + damping * dot dim (grad z c p) (grad V c p)) = over cells (fun c p => b c p V)) ->
  forall c p, In c cells -> In p (e_pts c) -> val (distribute con x) c p = val z c p.
Proof.
  intros Hc HB Fz HP Hd W1 W2 c p Hin Hp. set (y := distribute con x) in *. set (V := fun g => y g - z g).
  assert (FV : fulfils con V). { intros i l E. unfold V. rewrite (Fz i l E). rewrite (distribute_fulfils con x Hc i l E : y i = _). rewrite <- suml_minus. apply suml_ext. intros; unfold y; ring. }
  assert (Vv : forall c p, val V c p = val y c p - val z c p). { intros. unfold V, val. rewrite <- sumn_minus. apply sumn_ext. intros; ring. }
  assert (Gv : forall c p d, grad V c p d = grad y c p d - grad z c p d). { intros. unfold V, grad. rewrite <- sumn_minus. apply sumn_ext. intros; ring. }
  assert (Z : over cells (fun c p => val V c p * val V c p + damping * dot dim (grad V c p) (grad V c p)) = 0).
  { transitivity (over cells (fun c p => b c p V) - over cells (fun c p => b c p V)); [|ring]. rewrite <- (W1 V FV) at 1. rewrite <- (W2 V FV). unfold over. rewrite <- suml_minus. apply suml_ext. intros c' _.
    rewrite <- suml_minus. apply suml_ext. intros p' _. rewrite (Vv c' p') at 1. replace (dot dim (grad V c' p') (grad V c' p')) with (dot dim (grad y c' p') (grad V c' p') - dot dim (grad z c' p') (grad V c' p')); [ring|].
    unfold dot. rewrite <- sumn_minus. apply sumn_ext. intros d _. rewrite (Gv c' p' d). ring. }
  assert (S2 := over_zero cells _ (fun c' p' Hc' Hp' => Rmult_le_pos _ _ (Rlt_le _ _ (HP c' p' Hc' Hp')) (Rplus_le_le_0_compat _ _ (Rle_0_sqr (val V c' p')) (Rmult_le_pos _ _ Hd (edot_nonneg dim (grad V c' p'))))) Z c p Hin Hp).
  cbv beta in S2. pose proof (HP c p Hin Hp). pose proof (edot_nonneg dim (grad V c p)) as P. change (edot dim (grad V c p) (grad V c p)) with (dot dim (grad V c p) (grad V c p)) in P.
  unfold Rsqr in S2. apply Rmult_integral in S2 as [S2|S2]; [lra|]. assert (0 <= damping * dot dim (grad V c p) (grad V c p)) by (apply Rmult_le_pos; assumption).
  change (edot dim (grad V c p) (grad V c p)) with (dot dim (grad V c p) (grad V c p)) in S2. pose proof (Rle_0_sqr (val V c p)) as Q. unfold Rsqr in Q.
  assert (H1 : val V c p * val V c p = 0) by lra. apply Rmult_integral in H1. rewrite Vv in H1. lra.
Qed.
Theorem C95_planar_normals : forall n dim con diag damping cells U d x e,
  closed con -> below n con cells -> translations None cells -> sums_to_one dim con cells -> positive_weights cells -> 0 <= damping ->
  (forall c p, In c cells -> In p (e_pts c) -> grad U c p d = e) ->
  solves_system n con diag (normal_systems dim damping cells U d) x ->
  forall c p, In c cells -> In p (e_pts c) -> val (distribute con x) c p = e.
Proof.
  intros n dim con diag damping cells U d x e Hc HB HT H1 HP Hd Hg Hx c p Hin Hp.
  rewrite (difference_zero n dim con damping cells (fun c p V => grad U c p d * val V c p) x (fun _ => e)); try assumption.
  - apply (constant_val dim con cells e c p); assumption.
  - apply (constant_fulfils dim con cells e H1).
  - intros V F. apply (C95_normal_weak_form n dim con diag damping cells U d x V); assumption.
  - intros V F. unfold over. apply suml_ext. intros c' Hc'. apply suml_ext. intros p' Hp'. rewrite (constant_val dim con cells e c' p'), Hg by assumption.
    replace (dot dim (grad (fun _ => e) c' p') (grad V c' p')) with 0; [ring|]. symmetry. unfold dot. apply sumn_zero. intros d' Hd'. rewrite (constant_grad dim con cells e c' p' d') by assumption. ring.
Qed.
(** a field of parallel normals: no curvature if no test function feels the boundary *)
Theorem C95_flat_partial : forall n dim con diag damping cells N x e,
  closed con -> below n con cells -> translations None cells -> sums_to_one dim con cells -> positive_weights cells -> 0 <= damping ->
  (forall c p, In c cells -> In p (e_pts c) -> forall d, (d < dim)%nat -> curvature_normal dim (fun d => val (fun g => N g d) c p) d = e d) ->
  (forall V, fulfils con V -> over cells (fun c p => dot dim e (grad V c p)) = 0) ->
  solves_system n con diag (curvature_systems dim damping cells N) x ->
  forall c p, In c cells -> In p (e_pts c) -> val (distribute con x) c p = 0.
Proof.
  intros n dim con diag damping cells N x e Hc HB HT H1 HP Hd He HV Hx c p Hin Hp.
  rewrite (difference_zero n dim con damping cells (fun c p V => dot dim (curvature_normal dim (fun d => val (fun g => N g d) c p)) (grad V c p)) x (fun _ => 0)); try assumption.
  - apply (constant_val dim con cells 0 c p); assumption.
  - apply (constant_fulfils dim con cells 0 H1).
  - intros V F. apply (C95_curvature_weak_form n dim con diag damping cells N x V); assumption.
  - intros V F. transitivity (over cells (fun c p => dot dim e (grad V c p))).
    + rewrite (HV V F). unfold over. apply suml_zero. intros c' Hc'. apply suml_zero. intros p' Hp'. rewrite (constant_val dim con cells 0 c' p') by assumption.
      replace (dot dim (grad (fun _ => 0) c' p') (grad V c' p')) with 0; [ring|]. symmetry. unfold dot. apply sumn_zero. intros d' Hd'. rewrite (constant_grad dim con cells 0 c' p' d') by assumption. ring.
    + unfold over. apply suml_ext. intros c' Hc'. apply suml_ext. intros p' Hp'. f_equal. unfold dot. apply sumn_ext. intros d' Hd'. rewrite (He c' p' Hc' Hp' d' Hd'). reflexivity.
Qed.
(** Violated: the boundary term of the integration by parts is missing, so a flat interface gets curvature wherever the mean normal
    derivative of some function is not zero (nodes on the boundary) *)
Theorem C95_violation_flat : forall n dim con diag damping cells N x e V,
  closed con -> below n con cells -> translations None cells -> fulfils con V ->
  (forall c p, In c cells -> In p (e_pts c) -> forall d, (d < dim)%nat -> curvature_normal dim (fun d => val (fun g => N g d) c p) d = e d) ->
  over cells (fun c p => dot dim e (grad V c p)) <> 0 ->
  solves_system n con diag (curvature_systems dim damping cells N) x ->
  ~ (forall g, distribute con x g = 0).
Proof.
  intros n dim con diag damping cells N x e V Hc HB HT F He HV Hx Z. apply HV.
  transitivity (over cells (fun c p => dot dim (curvature_normal dim (fun d => val (fun g => N g d) c p)) (grad V c p))).
  - unfold over. apply suml_ext. intros c' Hc'. apply suml_ext. intros p' Hp'. f_equal. unfold dot. apply sumn_ext. intros d' Hd'. rewrite (He c' p' Hc' Hp' d' Hd'). reflexivity.
  - rewrite <- (C95_curvature_weak_form n dim con diag damping cells N x V) by assumption. unfold over. apply suml_zero. intros c' _. apply suml_zero. intros p' _.
    replace (val (distribute con x) c' p') with 0 by (symmetry; unfold val; apply sumn_zero; intros; rewrite Z; ring).
    replace (dot dim (grad (distribute con x) c' p') (grad V c' p')) with 0; [ring|]. symmetry. unfold dot. apply sumn_zero. intros d' _. replace (grad (distribute con x) c' p' d') with 0; [ring|].
    symmetry. unfold grad. apply sumn_zero. intros; rewrite Z; ring.
Qed.
(** Violated: the total curvature is zero for every normal field, also for diverging ones *)
Theorem C95_violation_total_curvature : forall n dim con diag damping cells N x,
  closed con -> below n con cells -> translations None cells -> sums_to_one dim con cells ->
  solves_system n con diag (curvature_systems dim damping cells N) x ->
  over cells (val (distribute con x)) = 0.
Proof.
  intros n dim con diag damping cells N x Hc HB HT H1 Hx.
  pose proof (C95_curvature_weak_form n dim con diag damping cells N x (fun _ => 1) Hc HB HT (constant_fulfils dim con cells 1 H1) Hx) as W. cbv zeta in W.
  transitivity (over cells (fun c p => val (distribute con x) c p * val (fun _ => 1) c p + damping * dot dim (grad (distribute con x) c p) (grad (fun _ => 1) c p))).
  - unfold over. apply suml_ext. intros c Hin. apply suml_ext. intros p Hp. rewrite (constant_val dim con cells 1 c p) by assumption.
    rewrite (dot_zero_r dim _ (grad (fun _ => 1) c p)) by (intros d' Hd'; apply (constant_grad dim con cells 1 c p d'); assumption). ring.
  - rewrite W. unfold over. apply suml_zero. intros c Hin. apply suml_zero. intros p Hp.
    rewrite (dot_zero_r dim _ (grad (fun _ => 1) c p)) by (intros d' Hd'; apply (constant_grad dim con cells 1 c p d'); assumption). ring.
Qed.
(** without correction the curvature fulfils the hanging node constraints *)
Theorem C95_hanging_partial : forall dim con eps c x, closed con -> fulfils con (curvature_result dim con false eps c x).
Proof. intros dim con eps c x Hc. exact (distribute_fulfils con x Hc). Qed.
(** the correction acts on the value after the constraints: a node at distance x from a sphere of radius R0 gets the curvature of the sphere *)
Theorem C95_correction : forall dim con eps c x g R0 dist, (2 <= dim)%nat -> 0 < eps -> 0 < R0 -> dist < R0 ->
  c g = tanh (dist / (2 * eps)) -> distribute con x g = (INR dim - 1) / (R0 - dist) ->
  1/10000 < (INR dim - 1) / (R0 - dist) -> 1/100 < 1 - c g * c g ->
  curvature_result dim con true eps c x g = (INR dim - 1) / R0.
Proof.
  intros dim con eps c x g R0 dist Hd He HR Hx Hc Hk H1 H2. unfold curvature_result. rewrite Hk, Hc. rewrite Hc in H2.
  apply (C70_sphere dim eps R0 dist); assumption.
Qed.
(** Violated with correction: values at hanging nodes no longer are the mean of their masters *)
Theorem C95_violation_hanging : forall eps, 0 < eps -> eps * ln 3 < 1 -> exists con c x, closed con /\ fulfils con c /\
  ~ fulfils con (curvature_result 2 con true eps c x).
Proof.
  intros eps He H. exists (fun i => if Nat.eqb i 1 then Some [(0%nat, 1/2); (2%nat, 1/2)] else None), (fun i => if Nat.eqb i 0 then -(1/2) else if Nat.eqb i 1 then 0 else 1/2), (fun _ => 1).
  split; [|split].
  - intros i l m w E Hin. destruct (Nat.eqb i 1); [|discriminate]. injection E as <-. destruct Hin as [E|[E|[]]]; injection E as <- _; reflexivity.
  - intros i l E. destruct (Nat.eqb_spec i 1) as [->|]; [|discriminate]. injection E as <-. cbn. lra.
  - intros F. specialize (F 1%nat _ eq_refl). unfold curvature_result, Model_LevelSetOps.correct_curvature, distribute in F. cbn in F.
    replace (1 / 2 * 1 + (1 / 2 * 1 + 0)) with 1 in F by lra. rewrite !Properties_Bubble.Rltb_true in F by lra.
    replace ((1 + 0) / (1 - 0)) with 1 in F by field. rewrite ln_1 in F.
    replace ((1 + - (1 / 2)) / (1 - - (1 / 2))) with (/ 3) in F by field. replace ((1 + 1 / 2) / (1 - 1 / 2)) with 3 in F by field. rewrite ln_Rinv in F by lra.
    assert (0 < ln 3) by (rewrite <- ln_1; apply ln_increasing; lra). set (L := ln 3) in *. clearbody L. assert (HL : 0 < eps * L) by nra. set (M := eps * L) in *.
    replace (1 + 1 - 1) with 1 in F by ring. replace (eps * - L) with (- M) in F by (unfold M; ring). clearbody M.
    assert (E : 1 / (1 / 1 + - M / 1) = / (1 - M)) by (field; lra). assert (E2 : 1 / (1 / 1 + M / 1) = / (1 + M)) by (field; lra).
    replace (1 / (1 / 1 + eps * 0 / 1)) with 1 in F by field. rewrite E, E2 in F. assert (K : (1 - M) * (1 + M) = 1).
    { transitivity ((1 - M) * (1 + M) * (1 / 2 * / (1 - M) + (1 / 2 * / (1 + M) + 0))); [rewrite <- F; ring|field; lra]. }
    nra.
Qed.
(** ** C94: from the level set to the undefined step.  One fluid whose profile is not saturated: normals zero, 0/0 *)
Theorem C94_violation_one_fluid : forall n dim con diag eps dtau damping cells U k x c p,
  closed con -> below n con cells -> translations None cells -> sums_to_one dim con cells -> positive_weights cells -> 0 <= damping ->
  (forall g, U g = k) -> in_transition U c -> In c cells -> In p (e_pts c) ->
  (forall d, (d < dim)%nat -> solves_system n con diag (normal_systems dim damping cells U d) (x d)) ->
  reinit_systems dim eps dtau false cells U (fun g d => distribute con (x d) g) = None.
Proof.
  intros n dim con diag eps dtau damping cells U k x c p Hc HB HT H1 HP Hd HU HTr Hin Hp Hx. apply (C94_violation_zero_normal dim eps dtau cells U _ c p); try assumption.
  intros d Hdd. assert (EU : U = fun _ => k) by (apply functional_extensionality; exact HU).
  apply (C95_planar_normals n dim con diag damping cells U d (x d) 0); try assumption; [|apply Hx; exact Hdd]. intros c' p' Hc' Hp'. rewrite EU. apply (constant_grad dim con cells k c' p' d); assumption.
Qed.
Print Assumptions C95_smoothing_length.
Print Assumptions C95_reused_matrices.
Print Assumptions C95_normal_weak_form.
Print Assumptions C95_curvature_weak_form.
Print Assumptions C95_unit_normals.
Print Assumptions C95_total_normal.
Print Assumptions C95_planar_normals.
Print Assumptions C95_flat_partial.
Print Assumptions C95_violation_flat.
Print Assumptions C95_violation_total_curvature.
Print Assumptions C95_hanging_partial.
Print Assumptions C95_violation_hanging.
Print Assumptions C94_violation_one_fluid.

(** ** Witness: two cells of length one in one dimension, linear elements, nodes 0, 1, 2, one point in each middle *)
Definition wpoint : epoint := MkEP 1 (fun _ => 1/2) (fun i _ => if Nat.eqb i 0 then -1 else 1).
Definition wcells : list ecell := [MkEC 2 (fun a => a) [wpoint] 1 false; MkEC 2 (fun a => S a) [wpoint] 1 true].
Definition free_lines : lines := fun _ => None.
Example C94_nonvacuous : closed free_lines /\ below 3 free_lines wcells /\ translations None wcells /\ sums_to_one 1 free_lines wcells /\ positive_weights wcells /\
  reinit_systems 1 (1/2) (1/10) false wcells (fun g => INR g - 1) (fun _ _ => 1) <> None /\
  diffusive false (fun g => INR g - 1) (MkEC 2 (fun a => a) [wpoint] 1 false) = false.
Proof.
  assert (HD : forall c, In c wcells -> diffusive false (fun g => INR g - 1) c = false).
  { intros c Hc. destruct (diffusive false (fun g => INR g - 1) c) eqn:E; [|reflexivity]. exfalso. apply C94_which_cells in E as [E|E]; [discriminate|]. apply E. unfold in_transition.
    destruct Hc as [<-|[<-|[]]]; cbn; unfold val; cbn; match goal with |- _ <= Rabs ?t + 0 => assert (Q : t = -(3/4)) by field; rewrite Q end; rewrite Rabs_Ropp, Rabs_pos_eq; lra. }
  split; [intros i l m w E; discriminate|]. split.
  { intros c a mw [<-|[<-|[]]] Ha [<-|[]]; cbn in *; lia. }
  split. { cbn. split; [discriminate|]. split; [|exact I]. intros _. eexists. split; [reflexivity|reflexivity]. }
  split. { split; [|intros i l E; discriminate]. intros c p [<-|[<-|[]]] [<-|[]]; cbn; split; try lra; intros; lra. }
  split. { intros c p [<-|[<-|[]]] [<-|[]]; cbn; lra. }
  split.
  - apply C94_defined_partial. intros c p Hc Hp _. exists 0%nat. split; [lia|]. destruct Hc as [<-|[<-|[]]]; destruct Hp as [<-|[]]; cbn; unfold val; cbn; lra.
  - apply HD. left. reflexivity.
Qed.
(** flat interface (normals one everywhere): the function that is one at the right end has mean derivative one *)
Example C95_violation_flat_witness : forall x diag damping,
  solves_system 3 free_lines diag (curvature_systems 1 damping wcells (fun _ _ => 1)) x -> ~ (forall g, distribute free_lines x g = 0).
Proof.
  intros x diag damping Hx. apply (C95_violation_flat 3 1 free_lines diag damping wcells (fun _ _ => 1) x (fun _ => 1) (fun g => if Nat.eqb g 2 then 1 else 0)); try exact Hx; try apply C94_nonvacuous.
  - intros i l E; discriminate.
  - intros c p Hc Hp d Hd. assert (V1 : val (fun _ => 1) c p = 1) by (apply (constant_val 1 free_lines wcells 1); [apply C94_nonvacuous|assumption|assumption]).
    unfold curvature_normal, edot. cbn. rewrite V1. replace (0 + 1 * 1) with 1 by ring. rewrite sqrt_1. destruct (Rlt_dec _ _); lra.
  - unfold over, dot, grad. cbn. lra.
Qed.
(** such a system has a solution: curvature -1, 0, 1 on a flat interface *)
Example C95_violation_flat_solution : solves_system 3 free_lines (fun _ => 1) (curvature_systems 1 (3/4) wcells (fun _ _ => 1)) (fun g => INR g - 1).
Proof.
  assert (E : forall c p, In c wcells -> In p (e_pts c) -> curvature_normal 1 (e_normal c p (fun _ _ => 1)) = fun _ => 1).
  { intros c p Hc Hp. apply functional_extensionality. intros d. assert (V1 : e_normal c p (fun _ _ => 1) = fun _ => 1).
    { apply functional_extensionality. intros d'. unfold e_normal. rewrite e_value_val. apply (constant_val 1 free_lines wcells 1); [apply C94_nonvacuous|assumption|assumption]. }
    rewrite V1. unfold curvature_normal, edot. cbn. replace (0 + 1 * 1) with 1 by ring. rewrite sqrt_1. destruct (Rlt_dec _ _); lra. }
  pose proof (E _ wpoint (or_introl eq_refl) (or_introl eq_refl)) as E0. pose proof (E _ wpoint (or_intror (or_introl eq_refl)) (or_introl eq_refl)) as E1.
  intros g Hg. unfold curvature_systems, wcells. cbn [fst snd]. unfold curvature_vector. cbn [map e_pts]. unfold vector_row, suml. cbn [fst snd fold_right map]. rewrite E0, E1.
  destruct g as [|[|[|g]]]; [| | |lia]; cbn; unfold matrix_row; cbn; lra.
Qed.
