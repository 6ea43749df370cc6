(** * C106: the pressure that balances surface tension *)
From Coq Require Import Reals List Bool Arith Lia Lra.
From Verif Require Import SumR Model_LevelSet Model_Force Model_ContactAngle Model_PressureInterpolation Properties_Force.
From Verif Require Properties_ContactAngle Properties_InteriorPenalty.
Import ListNotations.
Open Scope R_scope.

(** ** Specification *)
(** the indicator field on a cell: nodal values times shape functions *)
Definition field (ls : element) (L : nat -> R) (c : geometry) (x : list R) : R := sumn (e_n ls) (fun k => L (g_ls c k) * e_shape ls k x).
(** a numbering of n things *)
Definition numbering (n : nat) (f : nat -> nat) : Prop :=
  (forall i, (i < n)%nat -> (f i < n)%nat) /\ (forall i j, (i < n)%nat -> (j < n)%nat -> f i = f j -> i = j).
(** the pressure unknowns that belong to a node (with FE_Q_DG0 the last one is the constant on the cell) *)
Definition n_nodes (simplex : bool) (k : kind) (p : element) : nat :=
  if simplex then e_n p else match k with FEQ => e_n p | FEQDG0 => (e_n p - 1)%nat | Other => O end.

Lemma NoDup_map_in (A B : Type) (f : A -> B) (l : list A) : (forall a b, In a l -> In b l -> f a = f b -> a = b) -> NoDup l -> NoDup (map f l).
Proof.
  induction l as [|a l IH]; intros H N; [constructor|]. inversion N as [|? ? Na Nl]; subst. cbn [map]. constructor.
  - intros I. apply in_map_iff in I as (b & E & Ib). apply Na. rewrite (H a b); [exact Ib|left; reflexivity|right; exact Ib|symmetry; exact E].
  - apply IH; [intros; apply H; try right; assumption|exact Nl].
Qed.
Lemma numbering_perm n f : numbering n f -> forall g, sumn n (fun i => g (f i)) = sumn n g.
Proof.
  intros [HB HI] g.
  assert (P : Permutation.Permutation (map f (seq 0 n)) (seq 0 n)).
  { apply Permutation.NoDup_Permutation_bis.
    - apply NoDup_map_in; [|apply seq_NoDup]. intros a b Ia Ib. apply in_seq in Ia, Ib. apply HI; lia.
    - rewrite map_length. lia.
    - intros y Iy. apply in_map_iff in Iy as (x & <- & Ix). apply in_seq in Ix. apply in_seq. specialize (HB x). lia. }
  rewrite <- !Properties_InteriorPenalty.sumn_seq, <- (Properties_InteriorPenalty.suml_perm _ _ g P), suml_map. reflexivity.
Qed.
(** the value handed to the pressure is the value of the indicator field at the pressure node; the additional constant gets zero *)
Theorem C106_values : forall simplex k ls p L c j, numbering (e_n ls) (e_lex ls) ->
  ((j < n_nodes simplex k p)%nat -> projected_value (cell_of simplex k ls p L c) j = field ls L c (e_support p (order simplex p j))) /\
  ((n_nodes simplex k p <= j < e_n p)%nat -> projected_value (cell_of simplex k ls p L c) j = 0).
Proof.
  intros simplex k ls p L c j HN. unfold projected_value, cell_of, n_nodes, interpolation, order, field. cbn [fc_nls fc_interp fc_ls]. split.
  - intros Hj. destruct simplex; [apply sumn_ext; intros; ring|]. destruct k; [| |lia].
    + rewrite (sumn_ext _ _ (fun i => (fun m => L (g_ls c m) * e_shape ls m (e_support p (e_lex p j))) (e_lex ls i))) by (intros; ring).
      exact (numbering_perm _ _ HN (fun m => L (g_ls c m) * e_shape ls m (e_support p (e_lex p j)))).
    + replace (Nat.ltb j (e_n p - 1)) with true by (symmetry; apply Nat.ltb_lt; exact Hj).
      rewrite (sumn_ext _ _ (fun i => (fun m => L (g_ls c m) * e_shape ls m (e_support p (e_lex p j))) (e_lex ls i))) by (intros; ring).
      exact (numbering_perm _ _ HN (fun m => L (g_ls c m) * e_shape ls m (e_support p (e_lex p j)))).
  - intros Hj. destruct simplex; [lia|]. destruct k; [lia| |apply sumn_zero; intros; ring].
    replace (Nat.ltb j (e_n p - 1)) with false by (symmetry; apply Nat.ltb_ge; lia). apply sumn_zero; intros; ring.
Qed.
Print Assumptions C106_values.

(** ** One pressure for all cells *)
(** the position of a point of a cell *)
Section mesh.
Variables (simplex : bool) (k : kind) (ls p : element) (L : nat -> R).
(** cells with the map from the unit cell *)
Definition mesh_cell := (geometry * (list R -> list R))%type.
(** the indicator is one continuous field: cells that meet in a point have the same value there *)
Definition continuous (mesh : list mesh_cell) : Prop := forall c c' x x', In c mesh -> In c' mesh -> snd c x = snd c' x' ->
  (exists j, (j < n_nodes simplex k p)%nat /\ x = e_support p (order simplex p j)) -> (exists j, (j < n_nodes simplex k p)%nat /\ x' = e_support p (order simplex p j)) ->
  field ls L (fst c) x = field ls L (fst c') x'.
(** pressure unknowns are shared only by nodes at the same place; the constants of the cells are not shared *)
Definition nodal (mesh : list mesh_cell) : Prop := forall c c' j j', In c mesh -> In c' mesh -> (j < e_n p)%nat -> (j' < e_n p)%nat ->
  g_p (fst c) (order simplex p j) = g_p (fst c') (order simplex p j') ->
  ((j < n_nodes simplex k p)%nat <-> (j' < n_nodes simplex k p)%nat) /\
  ((j < n_nodes simplex k p)%nat -> snd c (e_support p (order simplex p j)) = snd c' (e_support p (order simplex p j'))).

Lemma glue (l : list (nat * R)) : (forall a b v w, In (a, v) l -> In (b, w) l -> a = b -> v = w) -> exists P : nat -> R, forall a v, In (a, v) l -> P a = v.
Proof.
  induction l as [|[a v] l IH]; intros H; [exists (fun _ => 0); intros ? ? []|].
  destruct IH as [P HP]; [intros; eapply H; eauto; right; assumption|].
  exists (fun g => if Nat.eqb g a then v else P g). intros b w [E|I].
  - injection E as <- <-. rewrite Nat.eqb_refl. reflexivity.
  - destruct (Nat.eqb_spec b a) as [->|N]; [|apply HP; exact I]. apply (H a a v w); [left; reflexivity|right; exact I|reflexivity].
Qed.
(** there is one global pressure vector whose unknowns are, on every cell, the values handed to the pressure *)
Theorem C106_pressure : forall mesh, numbering (e_n ls) (e_lex ls) -> continuous mesh -> nodal mesh ->
  exists P : nat -> R, forall c j, In c mesh -> (j < e_n p)%nat ->
    P (g_p (fst c) (order simplex p j)) = projected_value (cell_of simplex k ls p L (fst c)) j /\
    (~ (j < n_nodes simplex k p)%nat -> P (g_p (fst c) (order simplex p j)) = 0).
Proof.
  intros mesh HN HC HO.
  destruct (glue (flat_map (fun c => map (fun j => (g_p (fst c) (order simplex p j), projected_value (cell_of simplex k ls p L (fst c)) j)) (seq 0 (e_n p))) mesh)) as [P HP].
  - intros a b v w Ia Ib E. apply in_flat_map in Ia as (c & Ic & Ia), Ib as (c' & Ic' & Ib).
    apply in_map_iff in Ia as (j & Ej & Ij), Ib as (j' & Ej' & Ij'). injection Ej as Ea <-. injection Ej' as Eb <-. apply in_seq in Ij, Ij'.
    destruct (HO c c' j j' Ic Ic') as [HI HX]; [lia|lia|congruence|].
    destruct (C106_values simplex k ls p L (fst c) j HN) as [V1 V2], (C106_values simplex k ls p L (fst c') j' HN) as [W1 W2].
    destruct (lt_dec j (n_nodes simplex k p)) as [Hj|Hj].
    + rewrite V1, W1 by tauto. apply HC; [exact Ic|exact Ic'|apply HX; exact Hj|exists j; auto|exists j'; split; [tauto|reflexivity]].
    + rewrite V2, W2; [reflexivity|split; [|lia]|split; [|lia]]; [|lia]. destruct (lt_dec j' (n_nodes simplex k p)); [tauto|lia].
  - exists P. intros c j Ic Hj.
    assert (E : P (g_p (fst c) (order simplex p j)) = projected_value (cell_of simplex k ls p L (fst c)) j).
    { apply HP. apply in_flat_map. exists c. split; [exact Ic|]. apply in_map_iff. exists j. split; [reflexivity|]. apply in_seq. lia. }
    split; [exact E|]. intros Hn. rewrite E. apply (C106_values simplex k ls p L (fst c) j HN). lia.
Qed.
(** weak form of the gradient of a global pressure vector, and of its divergence form, tested with velocity unknown g in direction d *)
Definition weak_gradient (mesh : list mesh_cell) (P : nat -> R) (g d : nat) : R :=
  suml mesh (fun c => sumn (g_nv (fst c)) (fun i => if Nat.eqb (g_vdof (fst c) i) g then
     sumn (g_nq (fst c)) (fun q => sumn (e_n p) (fun j => P (g_p (fst c) (order simplex p j)) * g_pgrad (fst c) q j d) * g_vshape (fst c) q i * g_JxW (fst c) q) else 0)).
(** with constant curvature and without gravity, the force of the level set solver on the fluid is the gradient of one pressure *)
Theorem C106_balance : forall par kappa mesh, numbering (e_n ls) (e_lex ls) -> continuous mesh -> nodal mesh ->
  fp_interpolate par = true -> fp_gravity par = 0 ->
  (forall c q, In c mesh -> (q < g_nq (fst c))%nat -> curvature_value (cell_of simplex k ls p L (fst c)) q = kappa) ->
  exists P : nat -> R,
    (forall c j, In c mesh -> (j < n_nodes simplex k p)%nat ->
       P (g_p (fst c) (order simplex p j)) = fp_surface_tension par * kappa * field ls L (fst c) (e_support p (order simplex p j))) /\
    (forall c j, In c mesh -> (n_nodes simplex k p <= j < e_n p)%nat -> P (g_p (fst c) (order simplex p j)) = 0) /\
    forall g d, user_rhs (okz_force par) (map (fun c => cell_of simplex k ls p L (fst c)) mesh) g d = weak_gradient mesh P g d.
Proof.
  intros par kappa mesh HN HC HO HI HG HK. destruct (C106_pressure mesh HN HC HO) as [P HP].
  assert (NB : (n_nodes simplex k p <= e_n p)%nat) by (unfold n_nodes; destruct simplex, k; lia).
  exists (fun g => fp_surface_tension par * kappa * P g). split; [|split].
  - intros c j Ic Hj. rewrite (proj1 (HP c j Ic ltac:(lia))). f_equal. apply (C106_values simplex k ls p L (fst c) j HN). exact Hj.
  - intros c j Ic Hj. rewrite (proj2 (HP c j Ic ltac:(lia))) by lia. ring.
  - intros g d. rewrite (C61_well_balanced par kappa _ g d HI HG).
    2:{ intros c q Ic Hq. apply in_map_iff in Ic as (c0 & <- & Ic). apply HK; assumption. }
    unfold discrete_gradient, user_rhs, weak_gradient. rewrite suml_map. apply suml_ext. intros c Ic. unfold cell_rhs. cbn [cell_of fc_nv fc_vdof fc_nq fc_vshape fc_JxW].
    apply sumn_ext. intros i _. destruct (Nat.eqb _ g); [|reflexivity]. apply sumn_ext. intros q _. f_equal. f_equal.
    unfold pressure_gradient. cbn [fc_np fc_pgrad cell_of]. apply sumn_ext. intros j Hj. rewrite (proj1 (HP c j Ic Hj)). reflexivity.
Qed.
(** the momentum equation of the fluid at rest in weak form: - (p, div v) = (force, v); shape gradients of the velocity [dv], shape values of
    the pressure [pv] *)
Definition weak_pressure (mesh : list mesh_cell) (dv : geometry -> nat -> nat -> nat -> R) (pv : geometry -> nat -> nat -> R) (P : nat -> R) (g d : nat) : R :=
  suml mesh (fun c => sumn (g_nv (fst c)) (fun i => if Nat.eqb (g_vdof (fst c) i) g then
     sumn (g_nq (fst c)) (fun q => - sumn (e_n p) (fun j => P (g_p (fst c) (order simplex p j)) * pv (fst c) q j) * dv (fst c) q i d * g_JxW (fst c) q) else 0)).
(** if the quadrature integrates products of a continuous pressure and the test function of an unknown that vanishes on the boundary exactly by
    parts, the fluid at rest with that pressure solves the discrete momentum equation *)
Theorem C106_rest : forall par kappa mesh dv pv (interior : nat -> Prop), numbering (e_n ls) (e_lex ls) -> continuous mesh -> nodal mesh ->
  fp_interpolate par = true -> fp_gravity par = 0 ->
  (forall c q, In c mesh -> (q < g_nq (fst c))%nat -> curvature_value (cell_of simplex k ls p L (fst c)) q = kappa) ->
  (forall P g d, interior g -> (forall c j, In c mesh -> (n_nodes simplex k p <= j < e_n p)%nat -> P (g_p (fst c) (order simplex p j)) = 0) -> weak_gradient mesh P g d = weak_pressure mesh dv pv P g d) ->
  exists P : nat -> R, forall g d, interior g ->
    user_rhs (okz_force par) (map (fun c => cell_of simplex k ls p L (fst c)) mesh) g d - weak_pressure mesh dv pv P g d = 0.
Proof.
  intros par kappa mesh dv pv interior HN HC HO HI HG HK HP. destruct (C106_balance par kappa mesh HN HC HO HI HG HK) as (P & _ & Z & E). exists P. intros g d Hg. rewrite E, (HP P g d Hg Z). ring.
Qed.
End mesh.
Print Assumptions C106_pressure.
Print Assumptions C106_balance.
Print Assumptions C106_rest.

(** the same for the phase field solver, with constant chemical potential *)
Theorem C106_balance_phase_field : forall ls p L par mu mesh M, numbering (e_n ls) (e_lex ls) -> continuous false FEQ ls p L mesh -> nodal false FEQ p mesh ->
  interpolation_phase_field FEQ ls p = Some M -> fp_gravity par = 0 ->
  let cells := map (fun c : mesh_cell => MkFCell (g_nq (fst c)) (g_JxW (fst c)) (g_nv (fst c)) (g_vshape (fst c)) (g_vdof (fst c)) (e_n ls) (g_lshape (fst c)) (g_lgrad (fst c))
      (e_n p) (g_pgrad (fst c)) M (fun j => L (g_ls (fst c) (e_lex ls j))) (g_curv (fst c))) mesh in
  (forall c q, In c cells -> (q < fc_nq c)%nat -> curvature_value c q = mu) ->
  exists P : nat -> R, (forall c j, In c mesh -> (j < e_n p)%nat -> P (g_p (fst c) (e_lex p j)) = mu * field ls L (fst c) (e_support p (e_lex p j))) /\
    forall g d, user_rhs (pf_force par) cells g d = weak_gradient false p mesh P g d.
Proof.
  intros ls p L par mu mesh M HN HC HO HM HG cells HK. injection HM as <-. destruct (C106_pressure false FEQ ls p L mesh HN HC HO) as [P HP].
  exists (fun g => mu * P g). split.
  - intros c j Ic Hj. destruct (HP c j Ic Hj) as [E _]. cbn [order] in E. rewrite E. f_equal. apply (C106_values false FEQ ls p L (fst c) j HN). exact Hj.
  - intros g d. rewrite (C61_well_balanced_phase_field par mu cells g d HG HK).
    unfold discrete_gradient, user_rhs, weak_gradient, cells. rewrite suml_map. apply suml_ext. intros c Ic. unfold cell_rhs. cbn [fc_nv fc_vdof fc_nq fc_vshape fc_JxW].
    apply sumn_ext. intros i _. destruct (Nat.eqb _ g); [|reflexivity]. apply sumn_ext. intros q _. f_equal. f_equal.
    unfold pressure_gradient. cbn [fc_np fc_pgrad]. apply sumn_ext. intros j Hj. destruct (HP c j Ic Hj) as [E _]. rewrite E. reflexivity.
Qed.
Print Assumptions C106_balance_phase_field.

(** ** Piecewise linear elements *)
(** between the nodes m and m+1 the sum over the hat functions has two terms *)
Lemma floor_exists n (t : R) : (0 < n)%nat -> 0 <= t <= INR n -> exists m, (m < n)%nat /\ INR m <= t <= INR (S m).
Proof.
  intros Hn. induction n as [|n IH]; [lia|]. intros [A B]. destruct (Rle_lt_dec t (INR n)) as [C|C].
  - destruct n as [|n].
    + exists 0%nat. cbn in *. split; [lia|lra].
    + destruct IH as (m & Hm & Im); [lia|lra|]. exists m. split; [lia|exact Im].
  - exists n. split; [lia|lra].
Qed.
Lemma hat_sum n m x G : (m < n)%nat -> INR m <= INR n * x <= INR (S m) ->
  sumn (S n) (fun i => hat n i x * G i) = (1 - (INR n * x - INR m)) * G m + (INR n * x - INR m) * G (S m).
Proof.
  intros Hm Hx. rewrite (sumn_ext (S n) _ (fun i => (if Nat.eqb i m then (1 - (INR n * x - INR m)) * G m else 0) + (if Nat.eqb i (S m) then (INR n * x - INR m) * G (S m) else 0))).
  - rewrite sumn_plus, (sumn_delta (S n) m), (sumn_delta (S n) (S m)); try lia.
    + rewrite !Nat.eqb_refl. reflexivity.
    + intros i _ N. rewrite (proj2 (Nat.eqb_neq _ _) N). reflexivity.
    + intros i _ N. rewrite (proj2 (Nat.eqb_neq _ _) N). reflexivity.
  - intros i _. rewrite (Properties_ContactAngle.hat_between n m i x Hx). destruct (Nat.eqb_spec i m) as [->|N].
    + replace (Nat.eqb m (S m)) with false by (symmetry; apply Nat.eqb_neq; lia). ring.
    + destruct (Nat.eqb_spec i (S m)) as [->|N']; ring.
Qed.
(** sums over lexicographic indices *)
Lemma sumn_mul b m f : sumn (b * m) f = sumn m (fun j => sumn b (fun i => f (i + b * j)%nat)).
Proof.
  induction m as [|m IH]; [rewrite Nat.mul_0_r; reflexivity|].
  assert (A : forall n, sumn (b * m + n) f = sumn (b * m) f + sumn n (fun i => f (i + b * m)%nat)).
  { induction n as [|n IHn]; [rewrite Nat.add_0_r; cbn; ring|]. rewrite <- plus_n_Sm. rewrite !Properties_InteriorPenalty.sumn_last, IHn. rewrite (Nat.add_comm n). ring. }
  rewrite Nat.mul_succ_r, A, IH, Properties_InteriorPenalty.sumn_last. reflexivity.
Qed.
Lemma tensor_sum d n x G : length x = d ->
  sumn (S n ^ d) (fun i => tensor_hat n (digits d (S n) i) x * G (digits d (S n) i)) =
  match d, x with S d, t :: x => sumn (S n) (fun i => hat n i t * sumn (S n ^ d) (fun j => tensor_hat n (digits d (S n) j) x * G (i :: digits d (S n) j))) | _, _ => G [] end.
Proof.
  intros Hx. destruct d as [|d].
  - destruct x; [|discriminate]. cbn. ring.
  - destruct x as [|t x]; [discriminate|]. change (S n ^ S d)%nat with (S n * S n ^ d)%nat. rewrite sumn_mul.
    rewrite (sumn_ext (S n) (fun i => hat n i t * sumn (S n ^ d) _) (fun i => sumn (S n ^ d) (fun j => hat n i t * (tensor_hat n (digits d (S n) j) x * G (i :: digits d (S n) j))))) by (intros; rewrite sumn_scal; reflexivity).
    rewrite sumn_swap. apply sumn_ext. intros i Hi. apply sumn_ext. intros j _. cbn [digits].
    assert (E1 : ((i + S n * j) mod S n = i)%nat) by (rewrite Nat.mul_comm, Nat.mod_add by lia; apply Nat.mod_small; exact Hi).
    assert (E2 : ((i + S n * j) / S n = j)%nat) by (rewrite Nat.mul_comm, Nat.div_add by lia; rewrite Nat.div_small by exact Hi; reflexivity).
    rewrite E1, E2. cbn [tensor_hat]. ring.
Qed.
Definition unit_point (x : list R) : Prop := Forall (fun t => 0 <= t <= 1) x.
(** nodal values between two bounds give values between these bounds; affine nodal values are reproduced *)
Lemma tensor_bounds n a b : (0 < n)%nat -> forall d x G, length x = d -> unit_point x -> (forall J, length J = d -> a <= G J <= b) ->
  a <= sumn (S n ^ d) (fun i => tensor_hat n (digits d (S n) i) x * G (digits d (S n) i)) <= b.
Proof.
  intros Hn. induction d as [|d IH]; intros x G Hx HU HG; rewrite tensor_sum by exact Hx; [apply HG; reflexivity|].
  destruct x as [|t x]; [discriminate|]. injection Hx as Hx. inversion HU as [|? ? Ht HU']; subst.
  assert (Hn' : 0 < INR n) by (apply (lt_INR 0); exact Hn).
  destruct (floor_exists n (INR n * t) Hn) as (m & Hm & Im); [nra|].
  rewrite (hat_sum n m t _ Hm Im). rewrite S_INR in Im.
  pose proof (IH x (fun J => G (m :: J)) eq_refl HU' ltac:(intros; apply HG; cbn; congruence)) as B1.
  pose proof (IH x (fun J => G (S m :: J)) eq_refl HU' ltac:(intros; apply HG; cbn; congruence)) as B2.
  cbn beta in B1, B2. set (A1 := sumn _ _) in B1. set (A2 := sumn _ _) in B2. change (a <= (1 - (INR n * t - INR m)) * A1 + (INR n * t - INR m) * A2 <= b).
  clearbody A1 A2. set (s := INR n * t - INR m) in *. assert (0 <= s <= 1) by (unfold s; lra). clearbody s. nra.
Qed.
Fixpoint affine (coef : list R) (x : list R) : R := match coef, x with c :: coef, t :: x => c * t + affine coef x | _, _ => 0 end.
Lemma tensor_affine n : (0 < n)%nat -> forall d x coef a, length x = d -> unit_point x ->
  sumn (S n ^ d) (fun i => tensor_hat n (digits d (S n) i) x * (a + affine coef (map (fun i => INR i / INR n) (digits d (S n) i)))) = a + affine coef x.
Proof.
  intros Hn. assert (Hn' : 0 < INR n) by (apply (lt_INR 0); exact Hn).
  induction d as [|d IH]; intros x coef a Hx HU.
  - destruct x; [|discriminate]. destruct coef; cbn; ring.
  - rewrite (tensor_sum (S d) n x (fun J => a + affine coef (map (fun i => INR i / INR n) J)) Hx). destruct x as [|t x]; [discriminate|]. injection Hx as Hx. inversion HU as [|? ? Ht HU']; subst.
    destruct (floor_exists n (INR n * t) Hn) as (m & Hm & Im); [nra|].
    rewrite (hat_sum n m t (fun i => sumn (S n ^ length x) (fun j => tensor_hat n (digits (length x) (S n) j) x * (a + affine coef (map (fun i0 => INR i0 / INR n) (i :: digits (length x) (S n) j))))) Hm Im).
    destruct coef as [|c coef].
    + assert (G : forall i, sumn (S n ^ length x) (fun j => tensor_hat n (digits (length x) (S n) j) x * (a + affine [] (map (fun i0 => INR i0 / INR n) (i :: digits (length x) (S n) j)))) = a).
      { intros i. transitivity (a + affine [] x); [|cbn; ring]. rewrite <- (IH x [] a eq_refl HU'). apply sumn_ext. intros j _. reflexivity. }
      rewrite !G. cbn [affine]. ring.
    + assert (G : forall i, sumn (S n ^ length x) (fun j => tensor_hat n (digits (length x) (S n) j) x * (a + affine (c :: coef) (map (fun i0 => INR i0 / INR n) (i :: digits (length x) (S n) j)))) = a + c * (INR i / INR n) + affine coef x).
      { intros i. rewrite <- (IH x coef (a + c * (INR i / INR n)) eq_refl HU'). apply sumn_ext. intros j _. cbn [map affine]. ring. }
      rewrite !G. cbn [affine]. rewrite S_INR. field. lra.
Qed.
(** the element of the level set solvers *)
Definition inverse_numbering (n : nat) (f g : nat -> nat) : Prop := numbering n f /\ (forall i, (i < n)%nat -> g (f i) = i) /\ (forall i, (i < n)%nat -> f (g i) = i).
Lemma iso_field d n lex unlex L c x : inverse_numbering (S n ^ d) lex unlex ->
  field (iso_q1 d n lex unlex) L c x = sumn (S n ^ d) (fun i => tensor_hat n (digits d (S n) i) x * L (g_ls c (lex i))).
Proof.
  intros (HN & H1 & H2). unfold field. cbn [e_n e_shape iso_q1].
  rewrite <- (numbering_perm _ _ HN (fun k => L (g_ls c k) * tensor_hat n (digits d (S n) (unlex k)) x)). apply sumn_ext. intros i Hi. rewrite H1 by exact Hi. ring.
Qed.
(** number of a multi-index *)
Fixpoint undigits (b : nat) (J : list nat) : nat := match J with [] => O | i :: J => (i + b * undigits b J)%nat end.
Lemma undigits_digits b : (0 < b)%nat -> forall d i, (i < b ^ d)%nat -> undigits b (digits d b i) = i.
Proof.
  intros Hb. induction d as [|d IH]; intros i Hi; cbn [digits undigits]; [cbn in Hi; lia|].
  rewrite IH; [pose proof (Nat.div_mod i b); lia|]. apply Nat.div_lt_upper_bound; [lia|]. rewrite <- Nat.pow_succ_r'. exact Hi.
Qed.
Lemma digits_length d b i : length (digits d b i) = d.
Proof. revert i. induction d as [|d IH]; intros i; cbn; [reflexivity|rewrite IH; reflexivity]. Qed.
(** for the element of the level set solvers and pressure nodes inside of the unit cell: the values handed to the pressure stay between the bounds of
    the nodal values (no over- and undershoots), in particular constants are kept, and linear functions are exact *)
Theorem C106_range : forall k d n lex unlex p L c j, (0 < n)%nat -> inverse_numbering (S n ^ d) lex unlex ->
  (j < n_nodes false k p)%nat -> length (e_support p (e_lex p j)) = d -> unit_point (e_support p (e_lex p j)) ->
  let ls := iso_q1 d n lex unlex in
  let v := projected_value (cell_of false k ls p L c) j in
  (forall a b, (forall i, (i < S n ^ d)%nat -> a <= L (g_ls c i) <= b) -> a <= v <= b) /\
  (forall coef a, (forall i, (i < S n ^ d)%nat -> L (g_ls c i) = a + affine coef (e_support ls i)) -> v = a + affine coef (e_support p (e_lex p j))).
Proof.
  intros k d n lex unlex p L c j Hn HL Hj Hd HU ls v.
  assert (E : v = field ls L c (e_support p (e_lex p j))). { apply (C106_values false k ls p L c j); [apply HL|exact Hj]. }
  rewrite E. unfold ls. rewrite (iso_field d n lex unlex L c _ HL). destruct HL as (HN & H1 & H2). split.
  - intros a b HB. set (G := fun J => Rmin b (Rmax a (L (g_ls c (lex (undigits (S n) J)))))). rewrite (sumn_ext _ _ (fun i => tensor_hat n (digits d (S n) i) (e_support p (e_lex p j)) * G (digits d (S n) i))).
    + apply (tensor_bounds n a b Hn d _ G Hd HU). intros J _. unfold G. pose proof (HB 0%nat ltac:(apply Nat.neq_0_lt_0, Nat.pow_nonzero; lia)). split; [apply Rmin_glb; [lra|apply Rmax_l]|apply Rmin_l].
    + intros i Hi. f_equal. unfold G. rewrite undigits_digits by (try lia; exact Hi). pose proof (HB (lex i) (proj1 HN i Hi)). rewrite Rmax_right by lra. rewrite Rmin_right by lra. reflexivity.
  - intros coef a HA. rewrite <- (tensor_affine n Hn d _ coef a Hd HU). apply sumn_ext. intros i Hi. f_equal. rewrite HA by (apply HN; exact Hi). cbn [e_support iso_q1]. rewrite H1 by exact Hi. reflexivity.
Qed.
Print Assumptions C106_range.

(** ** Cartesian meshes *)
(** cell K of a Cartesian mesh (n parts per cell): the unknown with lexicographic number i sits at n K + i; unknowns at the same place are the same *)
Definition cartesian_ls (d n : nat) (enc : list nat -> nat) (unlex : nat -> nat) (K : list nat) (i : nat) : nat :=
  enc (map (fun ki => (n * fst ki + snd ki)%nat) (combine K (digits d (S n) (unlex i)))).
Definition position (K : list nat) (x : list R) : list R := map (fun kx => INR (fst kx) + snd kx) (combine K x).
Lemma pl_unique n (G : nat -> R) K K' m m' x x' : (m < n)%nat -> (m' < n)%nat -> INR m <= INR n * x <= INR (S m) -> INR m' <= INR n * x' <= INR (S m') -> INR K + x = INR K' + x' ->
  (1 - (INR n * x - INR m)) * G (n * K + m)%nat + (INR n * x - INR m) * G (n * K + S m)%nat =
  (1 - (INR n * x' - INR m')) * G (n * K' + m')%nat + (INR n * x' - INR m') * G (n * K' + S m')%nat.
Proof.
  intros Hm Hm' I I' E. rewrite S_INR in I, I'.
  assert (Y : INR n * x + INR (n * K) = INR n * x' + INR (n * K')) by (rewrite !mult_INR; nra).
  set (a := (n * K + m)%nat). set (b := (n * K' + m')%nat).
  assert (Ea : INR a = INR (n * K) + INR m) by (unfold a; apply plus_INR). assert (Eb : INR b = INR (n * K') + INR m') by (unfold b; apply plus_INR).
  replace (n * K + S m)%nat with (S a) by (unfold a; lia). replace (n * K' + S m')%nat with (S b) by (unfold b; lia).
  destruct (lt_eq_lt_dec a b) as [[H|H]|H].
  - assert (S a <= b)%nat as H1 by lia. apply le_INR in H1. rewrite S_INR in H1.
    assert (S b = S (S a) \/ True) by auto. assert (INR b = INR a + 1) by lra. assert (b = S a) as -> by (apply INR_eq; rewrite S_INR; lra).
    replace (INR n * x - INR m) with 1 by lra. replace (INR n * x' - INR m') with 0 by lra. ring.
  - rewrite <- H in *. replace (INR n * x' - INR m') with (INR n * x - INR m) by lra. ring.
  - assert (S b <= a)%nat as H1 by lia. apply le_INR in H1. rewrite S_INR in H1.
    assert (a = S b) as -> by (apply INR_eq; rewrite S_INR; lra).
    replace (INR n * x - INR m) with 0 by lra. replace (INR n * x' - INR m') with 1 by lra. ring.
Qed.
Lemma cartesian_unique n : (0 < n)%nat -> forall d K K' x x' (G : list nat -> R), length K = d -> length K' = d -> length x = d -> length x' = d -> unit_point x -> unit_point x' ->
  position K x = position K' x' ->
  sumn (S n ^ d) (fun i => tensor_hat n (digits d (S n) i) x * G (map (fun ki => (n * fst ki + snd ki)%nat) (combine K (digits d (S n) i)))) =
  sumn (S n ^ d) (fun i => tensor_hat n (digits d (S n) i) x' * G (map (fun ki => (n * fst ki + snd ki)%nat) (combine K' (digits d (S n) i)))).
Proof.
  intros Hn. assert (Hn' : 0 < INR n) by (apply (lt_INR 0); exact Hn).
  induction d as [|d IH]; intros K K' x x' G LK LK' Lx Lx' HU HU' HP.
  - destruct K, K', x, x'; try discriminate. reflexivity.
  - rewrite (tensor_sum (S d) n x (fun J => G (map (fun ki => (n * fst ki + snd ki)%nat) (combine K J))) Lx).
    rewrite (tensor_sum (S d) n x' (fun J => G (map (fun ki => (n * fst ki + snd ki)%nat) (combine K' J))) Lx').
    destruct K as [|k K], K' as [|k' K'], x as [|t x], x' as [|t' x']; try discriminate.
    injection LK as LK. injection LK' as LK'. injection Lx as Lx. injection Lx' as Lx'. pose proof (Forall_inv HU) as Ht. pose proof (Forall_inv_tail HU) as HV. pose proof (Forall_inv HU') as Ht'. pose proof (Forall_inv_tail HU') as HV'. cbn beta in Ht, Ht'.
    unfold position in HP. cbn [combine map fst snd] in HP. injection HP as HP1 HP2.
    destruct (floor_exists n (INR n * t) Hn) as (m & Hm & Im); [nra|]. destruct (floor_exists n (INR n * t') Hn) as (m' & Hm' & Im'); [nra|].
    rewrite (hat_sum n m t _ Hm Im), (hat_sum n m' t' _ Hm' Im'). cbn [combine map fst snd].
    pose (H := fun g => sumn (S n ^ d) (fun j => tensor_hat n (digits d (S n) j) x' * G (g :: map (fun ki => (n * fst ki + snd ki)%nat) (combine K' (digits d (S n) j))))).
    assert (EH : forall g, sumn (S n ^ d) (fun j => tensor_hat n (digits d (S n) j) x * G (g :: map (fun ki => (n * fst ki + snd ki)%nat) (combine K (digits d (S n) j)))) = H g).
    { intros g. unfold H. apply (IH K K' x x' (fun J => G (g :: J))); auto. }
    rewrite !EH. exact (pl_unique n H k k' m m' t t' Hm Hm' Im Im' HP1).
Qed.
(** on a Cartesian mesh of any dimension and size the field is continuous, so that the pressure of the theorems above exists *)
Theorem C106_cartesian : forall k d n lex unlex enc p L (cells : list (geometry * list nat)), (0 < n)%nat -> inverse_numbering (S n ^ d) lex unlex ->
  (forall j, (j < n_nodes false k p)%nat -> length (e_support p (e_lex p j)) = d /\ unit_point (e_support p (e_lex p j))) ->
  (forall c, In c cells -> length (snd c) = d /\ forall i, (i < S n ^ d)%nat -> g_ls (fst c) i = cartesian_ls d n enc unlex (snd c) i) ->
  continuous false k (iso_q1 d n lex unlex) p L (map (fun c => (fst c, position (snd c))) cells).
Proof.
  intros k d n lex unlex enc p L cells Hn HL HS HG c c' x x' Ic Ic' E (j & Hj & ->) (j' & Hj' & ->).
  apply in_map_iff in Ic as (a & <- & Ia), Ic' as (a' & <- & Ia'). cbn [fst snd order] in *.
  rewrite !(iso_field d n lex unlex L _ _ HL).
  destruct (HG a Ia) as [LA GA], (HG a' Ia') as [LA' GA'], (HS j Hj) as [S1 S2], (HS j' Hj') as [S1' S2']. destruct HL as (HN & H1 & H2).
  rewrite (sumn_ext _ _ (fun i => tensor_hat n (digits d (S n) i) (e_support p (e_lex p j)) * L (enc (map (fun ki => (n * fst ki + snd ki)%nat) (combine (snd a) (digits d (S n) i)))))).
  2:{ intros i Hi. rewrite GA by (apply HN; exact Hi). unfold cartesian_ls. rewrite H1 by exact Hi. reflexivity. }
  rewrite (sumn_ext (S n ^ d) (fun i => _ * L (g_ls (fst a') _)) (fun i => tensor_hat n (digits d (S n) i) (e_support p (e_lex p j')) * L (enc (map (fun ki => (n * fst ki + snd ki)%nat) (combine (snd a') (digits d (S n) i)))))).
  2:{ intros i Hi. rewrite GA' by (apply HN; exact Hi). unfold cartesian_ls. rewrite H1 by exact Hi. reflexivity. }
  apply (cartesian_unique n Hn d (snd a) (snd a') _ _ (fun J => L (enc J))); assumption.
Qed.
Print Assumptions C106_cartesian.

(** ** Hanging nodes *)
Definition corner (b : list nat) : Prop := Forall (fun k => (k <= 1)%nat) b.
Definition corner_number (n : nat) (b : list nat) : nat := undigits (S n) (map (fun k => (n * k)%nat) b).
Lemma corner_value n : (0 < n)%nat -> forall d b G, length b = d -> corner b ->
  sumn (S n ^ d) (fun i => tensor_hat n (digits d (S n) i) (map INR b) * G (digits d (S n) i)) = G (map (fun k => (n * k)%nat) b).
Proof.
  intros Hn. assert (Hn' : 0 < INR n) by (apply (lt_INR 0); exact Hn).
  induction d as [|d IH]; intros b G Hb HC.
  - destruct b; [|discriminate]. cbn. ring.
  - rewrite (tensor_sum (S d) n (map INR b) G) by (rewrite map_length; exact Hb). destruct b as [|k b]; [discriminate|]. injection Hb as Hb.
    pose proof (Forall_inv HC) as Hk. cbn beta in Hk. cbn [map].
    rewrite (sumn_delta (S n) (n * k)).
    + rewrite (IH b (fun J => G ((n * k)%nat :: J)) Hb (Forall_inv_tail HC)). unfold hat. rewrite mult_INR. replace (INR n * INR k - INR n * INR k) with 0 by ring.
      rewrite Rabs_R0, Rmax_right by lra. ring.
    + nia.
    + intros i _ Ni. unfold hat. rewrite <- mult_INR. assert (A : 1 <= Rabs (INR (n * k) - INR i)).
      { destruct (lt_dec (n * k) i) as [H|H].
        - assert (S (n * k) <= i)%nat as H1 by lia. apply le_INR in H1. rewrite S_INR in H1. rewrite Rabs_left1; lra.
        - assert (S i <= n * k)%nat as H1 by lia. apply le_INR in H1. rewrite S_INR in H1. rewrite Rabs_right; lra. }
      rewrite Rmax_left by lra. ring.
Qed.
Lemma undigits_bound b : (0 < b)%nat -> forall J, Forall (fun k => (k < b)%nat) J -> (undigits b J < b ^ length J)%nat.
Proof.
  intros Hb. induction J as [|k J IH]; intros H; cbn [undigits length]; [cbn; lia|].
  pose proof (Forall_inv H). pose proof (IH (Forall_inv_tail H)). rewrite Nat.pow_succ_r'. cbn beta in *. nia.
Qed.
Lemma digits_undigits b : (0 < b)%nat -> forall J, Forall (fun k => (k < b)%nat) J -> digits (length J) b (undigits b J) = J.
Proof.
  intros Hb. induction J as [|k J IH]; intros H; cbn [undigits length digits]; [reflexivity|]. pose proof (Forall_inv H) as Hk. cbn beta in Hk. f_equal.
  - rewrite Nat.mul_comm, Nat.mod_add by lia. apply Nat.mod_small. exact Hk.
  - rewrite Nat.mul_comm, Nat.div_add by lia. rewrite Nat.div_small by exact Hk. apply IH. exact (Forall_inv_tail H).
Qed.
(** a pressure unknown at a corner of a cell gets the nodal value of the indicator there *)
Theorem C106_corner : forall k d n lex unlex p L c j b, (0 < n)%nat -> inverse_numbering (S n ^ d) lex unlex -> (j < n_nodes false k p)%nat ->
  length b = d -> corner b -> e_support p (e_lex p j) = map INR b ->
  projected_value (cell_of false k (iso_q1 d n lex unlex) p L c) j = L (g_ls c (lex (corner_number n b))).
Proof.
  intros k d n lex unlex p L c j b Hn HL Hj Hb HC HS. rewrite (proj1 (C106_values false k (iso_q1 d n lex unlex) p L c j (proj1 HL)) Hj). cbn [order]. rewrite HS, (iso_field d n lex unlex L c _ HL).
  rewrite (sumn_ext _ _ (fun i => tensor_hat n (digits d (S n) i) (map INR b) * (fun J => L (g_ls c (lex (undigits (S n) J)))) (digits d (S n) i))).
  - exact (corner_value n Hn d b (fun J => L (g_ls c (lex (undigits (S n) J)))) Hb HC).
  - intros i Hi. f_equal. rewrite undigits_digits by (try lia; exact Hi). reflexivity.
Qed.
Print Assumptions C106_corner.
(** A hanging corner h half way between the corners A and B of a bigger neighbor: the discrete pressures have the mean of A and B there.  The
    values handed to the pressure are those of a discrete pressure only if the indicator at h is the mean of those at A and B.  The indicator is
    a nonlinear function of the level set (and with several parts per cell not linear along the edge): in general it is not. *)
Theorem C106_violation_hanging : forall k d n lex unlex p L (fine coarse : geometry) jh jA jB h A B, (0 < n)%nat -> inverse_numbering (S n ^ d) lex unlex ->
  (jh < n_nodes false k p)%nat -> (jA < n_nodes false k p)%nat -> (jB < n_nodes false k p)%nat ->
  length h = d -> length A = d -> length B = d -> corner h -> corner A -> corner B ->
  e_support p (e_lex p jh) = map INR h -> e_support p (e_lex p jA) = map INR A -> e_support p (e_lex p jB) = map INR B ->
  let at_ c b := L (g_ls c (lex (corner_number n b))) in
  at_ fine h <> (at_ coarse A + at_ coarse B) / 2 ->
  ~ exists P : nat -> R, P (g_p fine (e_lex p jh)) = (P (g_p coarse (e_lex p jA)) + P (g_p coarse (e_lex p jB))) / 2 /\
      forall c j, In c [fine; coarse] -> (j < n_nodes false k p)%nat -> P (g_p c (e_lex p j)) = projected_value (cell_of false k (iso_q1 d n lex unlex) p L c) j.
Proof.
  intros k d n lex unlex p L fine coarse jh jA jB h A B Hn HL Hjh HjA HjB Lh LA LB Ch CA CB Sh SA SB at_ NE (P & HC & HP). apply NE. unfold at_.
  rewrite <- (C106_corner k d n lex unlex p L fine jh h Hn HL Hjh Lh Ch Sh), <- (C106_corner k d n lex unlex p L coarse jA A Hn HL HjA LA CA SA), <- (C106_corner k d n lex unlex p L coarse jB B Hn HL HjB LB CB SB).
  rewrite <- !HP; try assumption; try (left; reflexivity); try (right; left; reflexivity).
Qed.
Print Assumptions C106_violation_hanging.
(** away from the interface nothing is lost: where the indicator is constant on the cells around a hanging node, the constraint holds for every
    choice of weights with sum one *)
Theorem C106_hanging_constant : forall k d n lex unlex p L v (fine : geometry) jh (masters : list (geometry * nat * R)), (0 < n)%nat -> inverse_numbering (S n ^ d) lex unlex ->
  (forall j, (j < n_nodes false k p)%nat -> length (e_support p (e_lex p j)) = d /\ unit_point (e_support p (e_lex p j))) ->
  (forall c i, c = fine \/ In c (map (fun m => fst (fst m)) masters) -> (i < S n ^ d)%nat -> L (g_ls c i) = v) ->
  (jh < n_nodes false k p)%nat -> (forall m, In m masters -> (snd (fst m) < n_nodes false k p)%nat) -> suml masters snd = 1 ->
  projected_value (cell_of false k (iso_q1 d n lex unlex) p L fine) jh =
  suml masters (fun m => snd m * projected_value (cell_of false k (iso_q1 d n lex unlex) p L (fst (fst m))) (snd (fst m))).
Proof.
  intros k d n lex unlex p L v fine jh masters Hn HL HS HV Hj HM HW.
  assert (E : forall c j, c = fine \/ In c (map (fun m => fst (fst m)) masters) -> (j < n_nodes false k p)%nat -> projected_value (cell_of false k (iso_q1 d n lex unlex) p L c) j = v).
  { intros c j Ic Hjj. destruct (HS j Hjj) as [S1 S2]. pose proof (proj1 (C106_range k d n lex unlex p L c j Hn HL Hjj S1 S2) v v) as R. cbn zeta in R.
    assert (T : v <= projected_value (cell_of false k (iso_q1 d n lex unlex) p L c) j <= v); [|lra]. apply R. intros i Hi. rewrite (HV c i Ic Hi). lra. }
  rewrite E by auto. rewrite (suml_ext masters _ (fun m => v * snd m)).
  - rewrite suml_scal, HW. ring.
  - intros m Im. rewrite E; [ring|right; apply in_map_iff; exists m; auto|apply HM; exact Im].
Qed.
Print Assumptions C106_hanging_constant.

(** ** Concrete cases *)
(** two dimensions, pressure elements of degree one (nodes at the corners, vertex order = lexicographic order), two parts per cell; deal.II numbers
    the unknowns of a cell vertices first, then lines, then the interior *)
Definition lex2 (i : nat) : nat := nth i [0; 6; 1; 4; 8; 5; 2; 7; 3]%nat 0%nat.
Definition unlex2 (i : nat) : nat := nth i [0; 2; 6; 8; 3; 5; 1; 7; 4]%nat 0%nat.
Definition q1 : element := MkElement 4 (fun _ _ => 0) (fun k => nth k [[0; 0]; [1; 0]; [0; 1]; [1; 1]] []) (fun i => i).
Lemma lex2_ok : inverse_numbering (3 ^ 2) lex2 unlex2.
Proof.
  split; [split|split].
  - intros i Hi. cbn in Hi. do 9 (destruct i as [|i]; [cbn; lia|]). lia.
  - intros i j Hi Hj E. cbn in Hi, Hj. assert (F : unlex2 (lex2 i) = unlex2 (lex2 j)) by (rewrite E; reflexivity).
    assert (I : forall i, (i < 9)%nat -> unlex2 (lex2 i) = i) by (clear; intros i Hi; do 9 (destruct i as [|i]; [reflexivity|]); lia).
    rewrite !I in F by lia. exact F.
  - intros i Hi. cbn in Hi. do 9 (destruct i as [|i]; [reflexivity|]). lia.
  - intros i Hi. cbn in Hi. do 9 (destruct i as [|i]; [reflexivity|]). lia.
Qed.
(** two neighboring cells of a Cartesian mesh, 5 x 3 unknowns of the indicator and 3 x 2 of the pressure *)
Definition enc2 (J : list nat) : nat := undigits 5 J.
Definition two_cell (K : nat) : geometry :=
  MkGeo 1 (fun _ => 1) 1 (fun _ _ => 1) (fun _ => 0%nat) (fun _ _ => 1/9) (fun _ _ _ => 0) (fun _ _ _ => 1) (fun _ => 3)
    (fun i => cartesian_ls 2 2 enc2 unlex2 [K; 0%nat] i) (fun k => (K + k mod 2 + 3 * (k / 2))%nat).
Definition two_mesh : list (geometry * list nat) := [(two_cell 0, [0; 0]%nat); (two_cell 1, [1; 0]%nat)].
Example C106_nonvacuous : forall L,
  numbering 9 lex2 /\ continuous false FEQ (iso_q1 2 2 lex2 unlex2) q1 L (map (fun c => (fst c, position (snd c))) two_mesh) /\
  nodal false FEQ q1 (map (fun c => (fst c, position (snd c))) two_mesh) /\
  forall c, In c two_mesh -> curvature_value (cell_of false FEQ (iso_q1 2 2 lex2 unlex2) q1 L (fst c)) 0 = 3.
Proof.
  intros L. split; [apply lex2_ok|]. split; [|split].
  - apply (C106_cartesian FEQ 2 2 lex2 unlex2 enc2 q1 L two_mesh); [lia|exact lex2_ok| |].
    + intros j Hj. cbn in Hj. do 4 (destruct j as [|j]; [cbn; split; [reflexivity|repeat (apply Forall_cons; [lra|]); apply Forall_nil]|]). lia.
    + intros c [<-|[<-|[]]]; split; reflexivity.
  - intros c c' j j' Ic Ic' Hj Hj' E. cbn in Hj, Hj'. cbn [n_nodes q1 e_n]. split; [lia|]. intros _.
    cbn in Ic, Ic'. destruct Ic as [<-|[<-|[]]], Ic' as [<-|[<-|[]]]; cbn [fst snd] in *;
      destruct j as [|[|[|[|j]]]]; try lia; destruct j' as [|[|[|[|j']]]]; try lia; cbn in E; try discriminate E; unfold position; cbn; f_equal; try lra; f_equal; lra.
  - intros c [<-|[<-|[]]]; unfold curvature_value, fe_value; cbn; lra.
Qed.
(** a fine cell whose corner (1,0) hangs between the corners of a coarse cell: indicator 1 there, 0 at the ends *)
Definition hang_fine : geometry := MkGeo 1 (fun _ => 1) 0 (fun _ _ => 0) (fun _ => 0%nat) (fun _ _ => 0) (fun _ _ _ => 0) (fun _ _ _ => 0) (fun _ => 0) (fun i => (10 + i)%nat) (fun i => (10 + i)%nat).
Definition hang_coarse : geometry := MkGeo 1 (fun _ => 1) 0 (fun _ _ => 0) (fun _ => 0%nat) (fun _ _ => 0) (fun _ _ _ => 0) (fun _ _ _ => 0) (fun _ => 0) (fun i => i) (fun i => i).
Example C106_hanging_witness : let L g := if Nat.eqb g 11 then 1 else 0 in
  ~ exists P : nat -> R, P (g_p hang_fine (e_lex q1 1)) = (P (g_p hang_coarse (e_lex q1 0)) + P (g_p hang_coarse (e_lex q1 1))) / 2 /\
      forall c j, In c [hang_fine; hang_coarse] -> (j < n_nodes false FEQ q1)%nat -> P (g_p c (e_lex q1 j)) = projected_value (cell_of false FEQ (iso_q1 2 2 lex2 unlex2) q1 L c) j.
Proof.
  intros L. apply (C106_violation_hanging FEQ 2 2 lex2 unlex2 q1 L hang_fine hang_coarse 1 0 1 [1; 0]%nat [0; 0]%nat [1; 0]%nat); try (cbn; lia); try exact lex2_ok; try reflexivity;
    try (repeat (apply Forall_cons; [lia|]); apply Forall_nil).
  unfold L, corner_number. cbn. lra.
Qed.
(** the hypothesis of C106_rest on the quadrature: one dimension, one cell, linear pressure, quadratic velocity vanishing at the ends, Simpson's rule *)
Definition q1_line : element := MkElement 2 (fun _ _ => 0) (fun k => nth k [[0]; [1]] []) (fun i => i).
Definition simpson (q : nat) : R := nth q [1/6; 4/6; 1/6] 0.
Definition line_cell : geometry :=
  MkGeo 3 simpson 1 (fun q _ => nth q [0; 1; 0] 0) (fun _ => 0%nat) (fun _ _ => 1/2) (fun _ _ _ => 0) (fun _ j _ => if Nat.eqb j 0 then -1 else 1) (fun _ => 2) (fun i => i) (fun i => i).
Example C106_rest_nonvacuous : let mesh := [(line_cell, fun x : list R => x)] in
  let dv := fun (_ : geometry) q (_ d : nat) => nth q [4; 0; -4] 0 in let pv := fun (_ : geometry) q j => nth j [nth q [1; 1/2; 0] 0; nth q [0; 1/2; 1] 0] 0 in
  forall P g d, weak_gradient false q1_line mesh P g d = weak_pressure false q1_line mesh dv pv P g d /\
    weak_gradient false q1_line mesh P 0 d = 4/6 * (P 1%nat - P 0%nat).
Proof.
  intros mesh dv pv P g d. unfold weak_gradient, weak_pressure, mesh, dv, pv, simpson, order. cbn. split; [|lra]. destruct g as [|g]; cbn; [|ring]. unfold simpson. cbn. lra.
Qed.
