(** * Property theorems C77 - C79: stabilization and linear solver of the level set advection *)
From Coq Require Import Reals List Bool ZArith QArith Lra Lia Permutation.
From Coq Require Import SpecFloat.
From Verif Require Import Num Model_Stabilization.
Import ListNotations.
Open Scope R_scope.

(** ** Specification *)
(** scalar product, Euclidean norm and mean of two vectors *)
Definition sdot (u v : list R) : R := fold_right Rplus 0 (map (fun xy => fst xy * snd xy) (combine u v)).
Definition snorm (u : list R) : R := sqrt (sdot u u).
Definition smean (u v : list R) : list R := map (fun xy => (fst xy + snd xy) / 2) (combine u v).
(** residual of the transport equation between the two old time levels, velocity and gradient averaged *)
Definition transport_residual (dt : R) (p : vpoint RNum) : R :=
  (vp_ls_old p - vp_ls_old_old p) / dt + sdot (smean (vp_u_old p) (vp_u_old_old p)) (smean (vp_grad_old p) (vp_grad_old_old p)).
Definition mean_velocity (p : vpoint RNum) : R := snorm (smean (vp_u_old p) (vp_u_old_old p)).
(** m is the maximum of f over the list (0 for an empty one) *)
Definition is_maximum {A} (f : A -> R) (l : list A) (m : R) : Prop :=
  0 <= m /\ (forall a, In a l -> f a <= m) /\ (m = 0 \/ exists a, In a l /\ m = f a).
(** the two implementations of std::min and std::max *)
Definition min_max (vmin vmax : R -> R -> R) : Prop :=
  (vmin = nmin (N:=RNum) /\ vmax = nmax (N:=RNum)) \/ (vmin = packed_min (N:=RNum) /\ vmax = packed_max (N:=RNum)).

(** ** Lemmas *)
Lemma is_maximum_unique {A} (f : A -> R) l l' m m' :
  (forall a, In a l <-> In a l') -> is_maximum f l m -> is_maximum f l' m' -> m = m'.
Proof.
  intros E (H1 & H2 & H3) (K1 & K2 & K3). apply Rle_antisym.
  - destruct H3 as [->|(a & I & ->)]; [exact K1|apply K2, E, I].
  - destruct K3 as [->|(a & I & ->)]; [exact H1|apply H2, E, I].
Qed.
Lemma tdot_from_spec s u v : tdot_from (N:=RNum) s u v = s + sdot u v.
Proof.
  revert s v; induction u as [|x u IH]; intros s [|y v]; unfold sdot; cbn; try lra.
  rewrite IH. unfold sdot. cbn. lra.
Qed.
Lemma tdot_spec u v : tdot (N:=RNum) u v = sdot u v.
Proof.
  destruct u as [|x u], v as [|y v]; unfold tdot, sdot; cbn; try (unfold Q2R; cbn; lra).
  rewrite tdot_from_spec. unfold sdot. reflexivity.
Qed.
Lemma sdot_scale u v u' v' : sdot (smean u u') (smean v v') = / 4 * sdot (tadd (N:=RNum) u u') (tadd (N:=RNum) v v').
Proof.
  revert v u' v'; induction u as [|x u IH]; intros [|y v] [|x' u'] [|y' v']; unfold sdot, smean in *; cbn in *; try lra.
  rewrite IH. field.
Qed.
Lemma sdot_nonneg u : 0 <= sdot u u.
Proof. induction u as [|x u IH]; unfold sdot in *; cbn; [lra|]. pose proof (Rle_0_sqr x). unfold Rsqr in *. lra. Qed.
Lemma vp_velocity p : sqrt (tdot (N:=RNum) (vp_u p) (vp_u p)) = 2 * mean_velocity p.
Proof.
  rewrite tdot_spec. unfold mean_velocity, snorm. rewrite sdot_scale. unfold vp_u.
  rewrite sqrt_mult_alt by lra. replace (sqrt (/ 4)) with (/ 2).
  - field.
  - symmetry. apply sqrt_lem_1; lra.
Qed.
Lemma vp_residual_spec dt p : vp_residual (N:=RNum) dt p = Rabs (transport_residual dt p).
Proof.
  unfold vp_residual, transport_residual. rnum. rewrite tdot_spec, sdot_scale. unfold vp_u.
  replace (Q2R (25#100)) with (/ 4) by (unfold Q2R; cbn; lra). f_equal. rnum. lra.
Qed.
Lemma vmax_is vmin vmax : min_max vmin vmax -> (forall x y, vmax x y = Rmax x y) /\ (forall x y, vmin x y = Rmin x y).
Proof.
  intros [[-> ->]|[-> ->]]; split; intros x y; unfold nmin, nmax, packed_min, packed_max; rnum;
    unfold Rmin, Rmax; destruct (Rle_dec x y); rcase; lra.
Qed.
Lemma fold_max {A} (f : A -> R) (g : R -> R -> R) (G : forall x y, g x y = Rmax x y) l m :
  let r := fold_left (fun m a => g (f a) m) l m in
  m <= r /\ (forall a, In a l -> f a <= r) /\ (r = m \/ exists a, In a l /\ r = f a).
Proof.
  revert m; induction l as [|a l IH]; intros m; cbn [fold_left].
  - split; [lra|]. split; [intros a []|auto].
  - destruct (IH (g (f a) m)) as (H1 & H2 & H3). rewrite G in *.
    pose proof (Rmax_l (f a) m). pose proof (Rmax_r (f a) m).
    split; [lra|]. split; [intros b [<-|I]; [lra|auto]|].
    destruct H3 as [->|(b & I & E)]; [|right; exists b; split; [right|]; auto].
    destruct (Rle_dec (f a) m); [left; apply Rmax_right; auto|right; exists a; split; [left; auto|apply Rmax_left; lra]].
Qed.
Lemma scan_spec vmin vmax dt pts : min_max vmin vmax ->
  is_maximum (fun p => Rabs (transport_residual dt p)) pts (fst (scan_points (N:=RNum) sqrt vmax dt pts)) /\
  is_maximum (fun p => 2 * mean_velocity p) pts (snd (scan_points (N:=RNum) sqrt vmax dt pts)).
Proof.
  intros H. destruct (vmax_is _ _ H) as [G _].
  assert (E : forall l a b, fold_left (fun (s : R * R) p => (vmax (vp_residual (N:=RNum) dt p) (fst s), vmax (sqrt (tdot (N:=RNum) (vp_u p) (vp_u p))) (snd s))) l (a, b)
    = (fold_left (fun m p => vmax (Rabs (transport_residual dt p)) m) l a, fold_left (fun m p => vmax (2 * mean_velocity p) m) l b)).
  { induction l as [|p l IH]; intros a b; cbn [fold_left fst snd]; [reflexivity|]. rewrite IH, vp_residual_spec, vp_velocity. reflexivity. }
  unfold scan_points. rnum. rewrite E. cbn [fst snd]. replace (Q2R (0#1)) with 0 by (unfold Q2R; cbn; lra).
  split; apply fold_max; auto.
Qed.
Lemma viscosity_value vmin vmax dt gmax omega h pts : min_max vmin vmax ->
  exists r v, is_maximum (fun p => Rabs (transport_residual dt p)) pts r /\ is_maximum mean_velocity pts v /\
    artificial_viscosity (N:=RNum) sqrt vmin vmax dt gmax omega h pts = 3 / 100 * (2 * v) * h * Rmin 1 (r / (2 * gmax * omega)).
Proof.
  intros H. destruct (scan_spec vmin vmax dt pts H) as [S1 S2]. destruct (vmax_is _ _ H) as [_ G].
  unfold artificial_viscosity. destruct (scan_points _ _ _ _) as [r w]. cbn [fst snd] in S1, S2.
  exists r, (w / 2). split; [exact S1|]. split.
  - destruct S2 as (A1 & A2 & A3). split; [lra|]. split; [intros p I; specialize (A2 p I); cbn in A2; lra|].
    destruct A3 as [->|(p & I & ->)]; [left; lra|right; exists p; split; [auto|lra]].
  - rewrite G. rnum. replace (Q2R (1#1)) with 1 by (unfold Q2R; cbn; lra). replace (Q2R (2#1)) with 2 by (unfold Q2R; cbn; lra).
    replace (Q2R (3#100)) with (3/100) by (unfold Q2R; cbn; lra).
    replace (1 * r / (gmax * 2 * omega)) with (r / (2 * gmax * omega)) by (unfold Rdiv; rewrite Rmult_1_l; f_equal; f_equal; ring).
    f_equal. lra.
Qed.

(** ** C77 *)
(** The stabilization is 0.03 times twice the largest mean velocity of the cell times its diameter times the relative size
    of the largest transport residual, cut at 1. *)
Theorem C77_value : forall vmin vmax dt gmax omega h (pts : list (vpoint RNum)), min_max vmin vmax ->
  exists r v, is_maximum (fun p => Rabs (transport_residual dt p)) pts r /\ is_maximum mean_velocity pts v /\
    artificial_viscosity (N:=RNum) sqrt vmin vmax dt gmax omega h pts = 3 / 100 * (2 * v) * h * Rmin 1 (r / (2 * gmax * omega)).
Proof. exact viscosity_value. Qed.
Print Assumptions C77_value.
(** It is not negative and of first order in the cell size. *)
Theorem C77_bounds : forall vmin vmax dt gmax omega h (pts : list (vpoint RNum)) V, min_max vmin vmax ->
  0 < gmax -> 0 < omega -> 0 <= h -> 0 <= V -> (forall p, In p pts -> mean_velocity p <= V) ->
  0 <= artificial_viscosity (N:=RNum) sqrt vmin vmax dt gmax omega h pts <= 6 / 100 * V * h.
Proof.
  intros vmin vmax dt gmax omega h pts V H Hg Ho Hh HV B.
  destruct (viscosity_value vmin vmax dt gmax omega h pts H) as (r & v & (R1 & _) & (V1 & V2 & V3) & ->).
  assert (v <= V) by (destruct V3 as [->|(p & I & ->)]; auto).
  assert (P : 0 < 2 * gmax * omega) by (apply Rmult_lt_0_compat; lra).
  assert (Q : 0 <= r / (2 * gmax * omega)) by (apply Rmult_le_pos; [lra|left; apply Rinv_0_lt_compat, P]).
  assert (0 <= Rmin 1 (r / (2 * gmax * omega)) <= 1) by (split; [apply Rmin_glb; lra|apply Rmin_l]).
  assert (0 <= v * h) by (apply Rmult_le_pos; lra). assert (v * h <= V * h) by (apply Rmult_le_compat_r; lra).
  split; [apply Rmult_le_pos; nra|]. apply Rle_trans with (3 / 100 * (2 * v) * h * 1); [apply Rmult_le_compat_l; nra|nra].
Qed.
Print Assumptions C77_bounds.
(** Where the old level sets solve the transport equation at all points - in particular for a constant level set - there is no
    artificial viscosity. *)
Theorem C77_vanishes_on_solutions : forall vmin vmax dt gmax omega h (pts : list (vpoint RNum)), min_max vmin vmax ->
  (forall p, In p pts -> transport_residual dt p = 0) ->
  artificial_viscosity (N:=RNum) sqrt vmin vmax dt gmax omega h pts = 0.
Proof.
  intros vmin vmax dt gmax omega h pts H Z.
  destruct (viscosity_value vmin vmax dt gmax omega h pts H) as (r & v & (R1 & R2 & R3) & _ & ->).
  assert (E : r = 0). { destruct R3 as [->|(p & I & ->)]; auto. rewrite (Z p I). apply Rabs_R0. }
  rewrite E. unfold Rdiv at 2. rewrite Rmult_0_l, Rmin_right by lra. lra.
Qed.
Print Assumptions C77_vanishes_on_solutions.
(** It does not depend on the order of the quadrature points, nor on which fluid is the positive one. *)
Definition swap_fluids (p : vpoint RNum) : vpoint RNum :=
  MkVP (N:=RNum) (- vp_ls_old p) (- vp_ls_old_old p) (map Ropp (vp_grad_old p)) (map Ropp (vp_grad_old_old p)) (vp_u_old p) (vp_u_old_old p).
Theorem C77_order_and_sign : forall vmin vmax dt gmax omega h (pts pts' : list (vpoint RNum)), min_max vmin vmax ->
  (forall p, In p pts <-> In p pts') ->
  artificial_viscosity (N:=RNum) sqrt vmin vmax dt gmax omega h pts = artificial_viscosity (N:=RNum) sqrt vmin vmax dt gmax omega h pts' /\
  artificial_viscosity (N:=RNum) sqrt vmin vmax dt gmax omega h (map swap_fluids pts) = artificial_viscosity (N:=RNum) sqrt vmin vmax dt gmax omega h pts.
Proof.
  intros vmin vmax dt gmax omega h pts pts' H E. split.
  - destruct (viscosity_value vmin vmax dt gmax omega h pts H) as (r & v & A & B & ->).
    destruct (viscosity_value vmin vmax dt gmax omega h pts' H) as (r' & v' & A' & B' & ->).
    rewrite (is_maximum_unique _ _ _ _ _ E A A'), (is_maximum_unique _ _ _ _ _ E B B'). reflexivity.
  - assert (T : forall p, Rabs (transport_residual dt (swap_fluids p)) = Rabs (transport_residual dt p)).
    { intros p. rewrite <- (Rabs_Ropp (transport_residual dt p)). f_equal. unfold transport_residual, swap_fluids. cbn [vp_ls_old vp_ls_old_old vp_grad_old vp_grad_old_old vp_u_old vp_u_old_old].
      assert (S : forall u a b, sdot u (smean (map Ropp a) (map Ropp b)) = - sdot u (smean a b)).
      { induction u as [|x u IH]; intros [|y a] [|z b]; unfold sdot, smean in *; cbn in *; try lra. rewrite IH. field. }
      rewrite S. unfold Rdiv. rnum. ring. }
    destruct (viscosity_value vmin vmax dt gmax omega h pts H) as (r & v & A & B & ->).
    destruct (viscosity_value vmin vmax dt gmax omega h (map swap_fluids pts) H) as (r' & v' & A' & B' & ->).
    assert (M : forall f f', (forall p, f' (swap_fluids p) = f p) -> forall m, is_maximum f' (map swap_fluids pts) m -> is_maximum f pts m).
    { intros f f' F m (X1 & X2 & X3). split; [auto|]. split.
      - intros p I. rewrite <- F. apply X2, in_map, I.
      - destruct X3 as [X3|(q & I & X3)]; auto. right. apply in_map_iff in I as (p & <- & I). exists p. rewrite <- F; auto. }
    rewrite (is_maximum_unique _ _ _ _ _ (fun p => iff_refl _) A (M _ _ T _ A')).
    rewrite (is_maximum_unique _ _ _ _ _ (fun p => iff_refl _) B (M mean_velocity mean_velocity (fun p => eq_refl) _ B')). reflexivity.
Qed.
Print Assumptions C77_order_and_sign.
Example C77_nonvacuous : exists p, transport_residual 1 p = 3/2 /\ mean_velocity p = 1.
Proof.
  exists (MkVP (N:=RNum) 1 0 [1] [0] [1] [1]). unfold transport_residual, mean_velocity, snorm, sdot, smean; cbn. split; [field|].
  replace ((1 + 1) / 2 * ((1 + 1) / 2) + 0) with 1 by field. apply sqrt_1.
Qed.
(** Violation: with the packed instructions of the usual processors a fluid at rest with a steady level set gets a viscosity that
    is not a number (0/0 in the scaling, returned by the packed minimum), although without them it is 0. *)
Theorem C77_violation_at_rest : forall m e n,
  let h := S754_finite false m e in       (* any positive cell diameter *)
  let p := MkVP (N:=FNum) (Fof_Q (1#2)) (Fof_Q (1#2)) [Fof_Z 1; Fof_Z 2] [Fof_Z 1; Fof_Z 2] [Fof_Z 0; Fof_Z 0] [Fof_Z 0; Fof_Z 0] in
  artificial_viscosity (N:=FNum) Fsqrt packed_min packed_max (Fof_Q (1#10)) (Fof_Z 0) (Fof_Z 1) h (repeat p n) = S754_nan /\
  artificial_viscosity (N:=FNum) Fsqrt nmin nmax (Fof_Q (1#10)) (Fof_Z 0) (Fof_Z 1) h (repeat p n) = Fof_Z 0.
Proof.
  intros m e n h p.
  assert (A : scan_points (N:=FNum) Fsqrt packed_max (Fof_Q (1#10)) (repeat p n) = (Fof_Z 0, Fof_Z 0)).
  { unfold scan_points. change (nlit (0#1)) with (nlit (n:=FNum) (0#1)). replace (nlit (n:=FNum) (0#1)) with (Fof_Z 0) by (vm_compute; reflexivity).
    induction n as [|n IH]; cbn [repeat fold_left]; [reflexivity|].
    match goal with |- fold_left _ _ ?s = _ => replace s with (Fof_Z 0, Fof_Z 0) by (vm_compute; reflexivity) end. exact IH. }
  assert (B : scan_points (N:=FNum) Fsqrt nmax (Fof_Q (1#10)) (repeat p n) = (Fof_Z 0, Fof_Z 0)).
  { unfold scan_points. replace (nlit (n:=FNum) (0#1)) with (Fof_Z 0) by (vm_compute; reflexivity).
    clear A. induction n as [|n IH]; cbn [repeat fold_left]; [reflexivity|].
    match goal with |- fold_left _ _ ?s = _ => replace s with (Fof_Z 0, Fof_Z 0) by (vm_compute; reflexivity) end. exact IH. }
  unfold artificial_viscosity. rewrite A, B. split; vm_compute; reflexivity.
Qed.
Print Assumptions C77_violation_at_rest.

(** ** C78: diameter of the coarse mesh *)
Definition distance (p q : point) : R := sqrt (sdot (map (fun xy => fst xy - snd xy) (combine p q)) (map (fun xy => fst xy - snd xy) (combine p q))).
Lemma norm_square_spec p q : norm_square p q = sdot (map (fun xy => fst xy - snd xy) (combine p q)) (map (fun xy => fst xy - snd xy) (combine p q)).
Proof. revert q; induction p as [|x p IH]; intros [|y q]; cbn; auto. rewrite IH. reflexivity. Qed.
Lemma norm_square_sym p q : norm_square p q = norm_square q p.
Proof. revert q; induction p as [|x p IH]; intros [|y q]; cbn; auto. rewrite IH. ring. Qed.
Lemma norm_square_self p : norm_square p p = 0.
Proof. induction p as [|x p IH]; cbn; auto. rewrite IH. ring. Qed.

Lemma set_flag_length f i : length (set_flag f i) = length f.
Proof. unfold set_flag. rewrite map_length, seq_length. reflexivity. Qed.
Lemma set_flag_nth f i k : (k < length f)%nat -> nth k (set_flag f i) false = (Nat.eqb k i || nth k f false)%bool.
Proof.
  intros H. unfold set_flag. rewrite (nth_indep _ false ((fun k => if Nat.eqb k i then true else nth k f false) 0%nat)) by (rewrite map_length, seq_length; auto).
  rewrite (map_nth (fun k => if Nat.eqb k i then true else nth k f false)), seq_nth by auto. cbn [Nat.add]. destruct (Nat.eqb k i); reflexivity.
Qed.
Lemma fold_flags face f k : length (fold_left set_flag face f) = length f /\
  ((k < length f)%nat -> (nth k (fold_left set_flag face f) false = true <-> nth k f false = true \/ In k face)).
Proof.
  revert f; induction face as [|i face IH]; intros f; cbn [fold_left]; [split; [auto|intros _; cbn; tauto]|].
  destruct (IH (set_flag f i)) as [L N]. rewrite set_flag_length in *. split; [auto|]. intros H. rewrite N, set_flag_nth by auto. cbn [In].
  rewrite orb_true_iff, Nat.eqb_eq. split; intros; intuition.
Qed.
Lemma flags_spec n faces k : (k < n)%nat ->
  (nth k (boundary_vertices n faces) false = true <-> exists face, In face faces /\ In k face) /\ length (boundary_vertices n faces) = n.
Proof.
  intros H. unfold boundary_vertices.
  assert (G : forall fs f, (k < length f)%nat -> length (fold_left (fun f face => fold_left set_flag face f) fs f) = length f /\
    (nth k (fold_left (fun f face => fold_left set_flag face f) fs f) false = true <-> nth k f false = true \/ exists face, In face fs /\ In k face)).
  { induction fs as [|face fs IH]; intros f Hk; cbn [fold_left].
    - split; [auto|]. split; [auto|intros [E|(? & [] & _)]; auto].
    - destruct (fold_flags face f k) as [L N]. destruct (IH (fold_left set_flag face f)) as [L2 N2]; [lia|]. split; [lia|].
      rewrite N2, N by auto. split.
      + intros [[E|I]|(g & I & J)]; [auto|right; exists face; split; [left|]; auto|right; exists g; split; [right|]; auto].
      + intros [E|(g & [<-|I] & J)]; [auto|auto|right; eauto]. }
  destruct (G faces (repeat false n)) as [L N]; [rewrite repeat_length; auto|]. rewrite repeat_length in L. split; [|auto].
  rewrite N. rewrite nth_repeat. split; [intros [E|E]; [discriminate|auto]|auto].
Qed.
Lemma inner_spec vs fl i l m :
  let r := fold_left (fun m j => if nth i fl false && nth j fl false && Rltb m (norm_square (nth i vs []) (nth j vs []))
                                 then norm_square (nth i vs []) (nth j vs []) else m) l m in
  m <= r /\ (nth i fl false = true -> forall j, In j l -> nth j fl false = true -> norm_square (nth i vs []) (nth j vs []) <= r) /\
  (r = m \/ exists j, In j l /\ nth i fl false = true /\ nth j fl false = true /\ r = norm_square (nth i vs []) (nth j vs [])).
Proof.
  revert m; induction l as [|a l IH]; intros m; cbn [fold_left].
  - split; [lra|]. split; [intros _ j []|auto].
  - match goal with |- context [fold_left _ l ?m1] => set (m' := m1); destruct (IH m') as (H1 & H2 & H3) end.
    assert (K : m <= m' /\ (nth i fl false = true -> nth a fl false = true -> norm_square (nth i vs []) (nth a vs []) <= m') /\
      (m' = m \/ nth i fl false = true /\ nth a fl false = true /\ m' = norm_square (nth i vs []) (nth a vs []))).
    { unfold m'. destruct (nth i fl false), (nth a fl false); cbn [andb];
        try (split; [lra|split; [intros E1 E2; discriminate|left; reflexivity]]).
      destruct (Rltb_spec m (norm_square (nth i vs []) (nth a vs []))); (split; [lra|split; [intros; lra|auto]]). }
    destruct K as (K1 & K2 & K3). cbv zeta in *. split; [lra|]. split.
    + intros Hi j [<-|I] Hj; [specialize (K2 Hi Hj); lra|auto].
    + destruct H3 as [->|(j & I & X1 & X2 & ->)]; [|right; exists j; split; [right; auto|auto]].
      destruct K3 as [->|(X1 & X2 & X3)]; [auto|right; exists a; split; [left; auto|auto]].
Qed.
Lemma outer_spec vs fl l m :
  let r := fold_left (fun m i => inner_loop vs fl i m) l m in
  m <= r /\ (forall i j, In i l -> (i < j < length fl)%nat -> nth i fl false = true -> nth j fl false = true -> norm_square (nth i vs []) (nth j vs []) <= r) /\
  (r = m \/ exists i j, In i l /\ (i < j < length fl)%nat /\ nth i fl false = true /\ nth j fl false = true /\ r = norm_square (nth i vs []) (nth j vs [])).
Proof.
  revert m; induction l as [|a l IH]; intros m; cbn [fold_left].
  - split; [lra|]. split; [intros i j []|auto].
  - destruct (IH (inner_loop vs fl a m)) as (H1 & H2 & H3).
    destruct (inner_spec vs fl a (seq (a + 1) (length fl - (a + 1))) m) as (K1 & K2 & K3). cbv zeta in *. change (fold_left _ (seq (a + 1) (length fl - (a + 1))) m) with (inner_loop vs fl a m) in K1, K2, K3.
    split; [lra|]. split.
    + intros i j [<-|I] Hj X1 X2; [|eauto]. assert (In j (seq (a + 1) (length fl - (a + 1)))) by (apply in_seq; lia). specialize (K2 X1 j H X2). eapply Rle_trans; [exact K2|exact H1].
    + destruct H3 as [->|(i & j & I & X)]; [|right; exists i, j; split; [right; auto|auto]].
      destruct K3 as [->|(j & J & X1 & X2 & X3)]; [auto|]. right. exists a, j. apply in_seq in J. split; [left; auto|]. split; [lia|auto].
Qed.

(** The diameter is the largest distance between two vertices on the boundary of the coarse mesh: no pair is farther apart, and it is
    attained (or there is at most one boundary vertex). *)
Theorem C78_largest_distance : forall (vertices : list point) (boundary_faces : list (list nat)),
  let D := diameter_on_coarse_grid vertices boundary_faces in
  let on_boundary i := (i < length vertices)%nat /\ exists face, In face boundary_faces /\ In i face in
  0 <= D /\
  (forall i j, on_boundary i -> on_boundary j -> distance (nth i vertices []) (nth j vertices []) <= D) /\
  (D = 0 \/ exists i j, on_boundary i /\ on_boundary j /\ D = distance (nth i vertices []) (nth j vertices [])).
Proof.
  intros vs faces D ob. unfold D, diameter_on_coarse_grid.
  set (fl := boundary_vertices (length vs) faces).
  assert (FL : forall k, (k < length vs)%nat -> (nth k fl false = true <-> exists face, In face faces /\ In k face)) by (intros k H; apply (flags_spec _ _ _ H)).
  assert (LE : length fl = length vs).
  { unfold fl. destruct (length vs) as [|n] eqn:E; [|apply (flags_spec (S n) faces 0%nat); lia].
    assert (G : forall fs f, length f = 0%nat -> length (fold_left (fun f face => fold_left set_flag face f) fs f) = 0%nat).
    { induction fs as [|g fs IH]; intros f Hf; cbn [fold_left]; auto. apply IH. destruct (fold_flags g f 0%nat) as [-> _]; auto. }
    apply G. reflexivity. }
  destruct (outer_spec vs fl (seq 0 (length fl)) 0) as (H1 & H2 & H3). cbv zeta in H1, H2, H3. change (fold_left _ (seq 0 (length fl)) 0) with (max_distance_sqr vs fl) in H1, H2, H3.
  split; [apply sqrt_pos|]. split.
  - intros i j [Hi Bi] [Hj Bj]. unfold distance. rewrite <- norm_square_spec. apply sqrt_le_1_alt.
    apply FL in Bi, Bj; auto. destruct (Nat.lt_trichotomy i j) as [L|[<-|L]].
    + apply H2; auto; [apply in_seq; lia|lia].
    + rewrite norm_square_self; auto.
    + rewrite norm_square_sym. apply H2; auto; [apply in_seq; lia|lia].
  - destruct H3 as [->|(i & j & I & L & X1 & X2 & ->)]; [left; apply sqrt_0|]. right. exists i, j.
    apply in_seq in I. unfold ob. rewrite FL in X1, X2 by lia. split; [split; [lia|auto]|]. split; [split; [lia|auto]|].
    unfold distance. rewrite <- norm_square_spec. reflexivity.
Qed.
Print Assumptions C78_largest_distance.
(** It depends on the set of boundary faces only, not on the order in which the cells are visited. *)
Theorem C78_order_independent : forall vertices faces faces',
  (forall i, (exists face, In face faces /\ In i face) <-> (exists face, In face faces' /\ In i face)) ->
  diameter_on_coarse_grid vertices faces = diameter_on_coarse_grid vertices faces'.
Proof.
  intros vs fs fs' E. destruct (C78_largest_distance vs fs) as (A1 & A2 & A3). destruct (C78_largest_distance vs fs') as (B1 & B2 & B3).
  cbv zeta in *. apply Rle_antisym.
  - destruct A3 as [->|(i & j & [I1 I2] & [J1 J2] & ->)]; [auto|]. apply B2; split; auto; apply E; auto.
  - destruct B3 as [->|(i & j & [I1 I2] & [J1 J2] & ->)]; [auto|]. apply A2; split; auto; apply E; auto.
Qed.
Print Assumptions C78_order_independent.
(** the unit square with one cell *)
Example C78_nonvacuous : diameter_on_coarse_grid [[0;0];[1;0];[0;1];[1;1]] [[0;2];[1;3];[0;1];[2;3]]%nat = sqrt 2.
Proof.
  destruct (C78_largest_distance [[0;0];[1;0];[0;1];[1;1]] [[0;2];[1;3];[0;1];[2;3]]%nat) as (A1 & A2 & A3). cbv zeta in *.
  assert (D : forall i j, distance (nth i [[0;0];[1;0];[0;1];[1;1]] []) (nth j [[0;0];[1;0];[0;1];[1;1]] []) <= sqrt 2).
  { intros i j. unfold distance. apply sqrt_le_1_alt. unfold sdot.
    destruct i as [|[|[|[|[|i]]]]], j as [|[|[|[|[|j]]]]]; cbn; lra. }
  apply Rle_antisym.
  - destruct A3 as [->|(i & j & _ & _ & ->)]; [apply sqrt_pos|apply D].
  - apply Rle_trans with (distance [0;0] [1;1]).
    + unfold distance, sdot; cbn. apply sqrt_le_1_alt. lra.
    + apply (A2 0%nat 3%nat); (split; [cbn; lia|]); [exists [0;1]%nat|exists [2;3]%nat]; cbn; auto 10.
Qed.

(** ** C79: the linear solver of the advection *)
(** Without the fallback the accepted increment has a small residual, absolute or relative to the right hand side; with it, relative to
    the residual of the last BiCGStab iterate. *)
Theorem C79_accepted_residual_partial : forall V tol_nl (s : system V) x n r0,
  solve tol_nl s = Solved x n r0 ->
  (let b := bicgstab s (zero_vector s) in
   x = k_last b /\ n = k_steps b /\ r0 = residual_norm s (zero_vector s) /\
   residual_norm s x <= Rmax (5/100 * tol_nl) (1/10^8 * residual_norm s (zero_vector s))) \/
  (let y := k_last (bicgstab s (zero_vector s)) in
   x = k_last (gmres s y) /\ n = (30 + k_steps (gmres s y))%nat /\ r0 = 0 /\
   residual_norm s x <= Rmax (5/100 * tol_nl) (1/10^8 * residual_norm s y)).
Proof.
  intros V tol s x n r0. unfold solve. set (t := 5/100 * tol).
  assert (K : forall a b, reduction_ok t (1/10^8) a b = true -> b <= Rmax t (1/10^8 * a)).
  { intros a b. unfold reduction_ok. destruct (Rle_dec b t) as [L|L]; [intros _; apply Rle_trans with t; [auto|apply Rmax_l]|].
    destruct (Rle_dec b (1/10^8 * a)) as [L2|L2]; [intros _; apply Rle_trans with (1/10^8 * a); [auto|apply Rmax_r]|discriminate]. }
  destruct (reduction_ok _ _ _ (residual_norm s (k_last (bicgstab s (zero_vector s))))) eqn:E.
  - intros [= <- <- <-]. left. cbv zeta. split; [auto|]. split; [auto|]. split; [auto|]. apply K, E.
  - destruct (reduction_ok _ _ _ (residual_norm s (k_last (gmres s _)))) eqn:E2; [|discriminate].
    intros [= <- <- <-]. right. cbv zeta. split; [auto|]. split; [auto|]. split; [auto|]. apply K, E2.
Qed.
Print Assumptions C79_accepted_residual_partial.
Example C79_nonvacuous : exists s : system R, solve 1 s = Solved 1 3 1.
Proof.
  exists (MkSystem (fun x => Rabs (1 - x)) 0 Rplus (fun x => x) (fun _ => MkKrylov 1 3) (fun x => MkKrylov x 0)).
  unfold solve; cbn -[pow]. unfold reduction_ok. replace (Rabs (1 - 1)) with 0 by (replace (1 - 1) with 0 by ring; rewrite Rabs_R0; auto).
  destruct (Rle_dec 0 (5/100 * 1)) as [L|L]; [|lra]. cbn [orb]. rewrite Rminus_0_r, Rabs_R1. reflexivity.
Qed.
(** Violation: after a divergent BiCGStab run the fallback accepts an increment that is a hundred times worse than none. *)
Theorem C79_violation_fallback : exists (s : system R) x n r0,
  solve (1/10^3) s = Solved x n r0 /\ residual_norm s x = 100 * residual_norm s (zero_vector s) /\ residual_norm s (zero_vector s) = 1.
Proof.
  exists (MkSystem (fun x => Rabs (1 - x)) 0 Rplus (fun x => x) (fun _ => MkKrylov (-(10^10 - 1)) 30) (fun x => MkKrylov (- 99) 1)), (- 99), 31%nat, 0.
  cbn [residual_norm zero_vector]. replace (1 - - 99) with 100 by ring. rewrite Rminus_0_r, Rabs_R1, (Rabs_pos_eq 100) by lra.
  split; [|lra]. unfold solve. cbn [residual_norm zero_vector bicgstab gmres k_last k_steps]. unfold reduction_ok.
  replace (1 - - (10^10 - 1)) with (10^10) by ring. replace (1 - - 99) with 100 by ring.
  rewrite Rminus_0_r, Rabs_R1, (Rabs_pos_eq 100) by lra. rewrite (Rabs_pos_eq (10^10)) by lra.
  repeat match goal with |- context [Rle_dec ?a ?b] => destruct (Rle_dec a b) as [?|?]; [try (exfalso; lra)|try (exfalso; lra)] end; cbn [orb]; reflexivity.
Qed.
Print Assumptions C79_violation_fallback.
(** The result is added to the start value with the boundary values imposed; if both solvers fail the exception leaves the object with the clock
    of the advection already advanced and the boundary values already overwritten. *)
Theorem C79_state : forall V tol_nl (impose : V -> V) (s : V -> system V) (st st' : adv_state V) ok,
  advance_concentration tol_nl impose s st = (st', ok) ->
  adv_steps st' = S (adv_steps st) /\
  (ok = true -> exists x n r0, solve tol_nl (s (impose (adv_solution st))) = Solved x n r0 /\
     adv_solution st' = add (s (impose (adv_solution st))) (impose (adv_solution st)) (distribute (s (impose (adv_solution st))) x)) /\
  (ok = false -> solve tol_nl (s (impose (adv_solution st))) = Failure /\ adv_solution st' = impose (adv_solution st)).
Proof.
  intros V tol impose s st st' ok. unfold advance_concentration. destruct (solve _ _) as [x n r0|] eqn:E; intros [= <- <-]; cbn;
    (split; [auto|split; [|]]); intros; try discriminate; eauto 10.
Qed.
Print Assumptions C79_state.
