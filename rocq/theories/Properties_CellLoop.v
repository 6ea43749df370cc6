(** * C123: the result of the matrix-free operator does not depend on how the cells are distributed over threads and ranges *)
From Coq Require Import Reals List Bool Arith Lia Lra Permutation.
From Verif Require Import SumR Model_Parameters Model_NSOperator Model_CellLoop.
From Verif Require Properties_InteriorPenalty Properties_SharpInterface Properties_GlobalMatrix.
Import ListNotations.
Open Scope R_scope.

(** ** Specification: the points of all cells, each with the entry of the arrays which belongs to its own batch, point and lane *)
Definition own (m : mesh) (c q : nat) : nat := (c * cl_nq m + q)%nat.
Definition own_coefficient (variable : bool) (field : list (nat -> R)) (const : R) (k v : nat) : R :=
  if variable then nth k field (fun _ => 0) v else const.
Definition own_point (m : mesh) (a : arrays) (c v q : nat) : qpoint :=
  let g := cl_point m c v q in
  MkPoint (JxW g) (phi g) (dphi g) (psi g)
    (own_coefficient (has_entries (a_rho a)) (a_rho a) (cl_density m) (own m c q) v)
    (own_coefficient (has_entries (a_rho a)) (a_mu a) (cl_viscosity m) (own m c q) v)
    (own_coefficient (has_entries (a_rho a)) (a_damping a) (cl_damping m) (own m c q) v)
    (old_value g) (old_gradient g) (old_old_value g) (old_old_gradient g).
Definition mesh_points (m : mesh) (a : arrays) (lin : list (nat -> stored)) : list (qpoint * stored) :=
  flat_map (fun c => flat_map (fun q => map (fun v => (own_point m a c v q, nth (own m c q) lin nothing v))
    (seq 0 (cl_active m c))) (seq 0 (cl_nq m))) (seq 0 (cl_batches m)).
(** the ranges are disjoint and make up all batches, in any order; the batches of the ranges may be worked on in any order *)
Definition partition (m : mesh) (ranges : list (nat * nat)) : Prop :=
  Permutation (flat_map (fun r => seq (fst r) (snd r - fst r)) ranges) (seq 0 (cl_batches m)).
Definition legal (m : mesh) (a : arrays) (ranges : list (nat * nat)) (schedule : list (nat * pointers)) : Prop :=
  partition m ranges /\ Permutation schedule (flat_map (tasks m a) ranges).

(** ** The pointers *)
Definition good (m : mesh) (variable : bool) (c : nat) (p : pointers) : Prop :=
  p_lin p = (c * cl_nq m)%nat /\
  (variable = true -> p_rho p = (c * cl_nq m)%nat /\ p_mu p = (c * cl_nq m)%nat /\ p_damping p = (c * cl_nq m)%nat).
Lemma start_good m b c : good m b c (start m c).
Proof. unfold good, start; cbn. intuition lia. Qed.
Lemma advance_good m b c p : good m b c p -> good m b (Datatypes.S c) (advance m true b p).
Proof.
  intros [A B]. unfold good, advance; cbn. split; [lia|]. intros ->. destruct (B eq_refl) as [-> [-> ->]]. lia.
Qed.
Lemma range_tasks_good m a n : forall c p, good m (use_variable a) c p ->
  Forall (fun t => good m (use_variable a) (fst t) (snd t)) (range_tasks m a n c p) /\ map fst (range_tasks m a n c p) = seq c n.
Proof.
  induction n as [|n IH]; intros c p H; cbn; [split; [constructor|reflexivity]|].
  destruct (IH (Datatypes.S c) (advance m true (use_variable a) p)) as [A B]; [now apply advance_good|].
  split; [constructor; [exact H|exact A]|now rewrite B].
Qed.
Lemma tasks_good m a ranges : Forall (fun t => good m (use_variable a) (fst t) (snd t)) (flat_map (tasks m a) ranges) /\
  map fst (flat_map (tasks m a) ranges) = flat_map (fun r => seq (fst r) (snd r - fst r)) ranges.
Proof.
  induction ranges as [|r l [A B]]; cbn; [split; [constructor|reflexivity]|].
  destruct (range_tasks_good m a (snd r - fst r) (fst r) (start m (fst r)) (start_good _ _ _)) as [C D].
  split; [apply Forall_app; split; [exact C|exact A]|]. unfold tasks in *. now rewrite map_app, B, D.
Qed.

Lemma coefficient_own b (f : list (nat -> R)) const ptr q v k : (b = true -> ptr = k) ->
  coefficient b f const ptr q v = own_coefficient b f const (k + q) v.
Proof. unfold coefficient, own_coefficient. destruct b; [|reflexivity]. intros ->; reflexivity. Qed.
Lemma point_own m a c p v q : good m (use_variable a) c p -> point_at m a p c v q = own_point m a c v q.
Proof.
  intros [_ B]. unfold point_at, with_coefficients, own_point, own. fold (use_variable a).
  rewrite (coefficient_own _ (a_rho a) _ (p_rho p) q v (c * cl_nq m)), (coefficient_own _ (a_mu a) _ (p_mu p) q v (c * cl_nq m)),
    (coefficient_own _ (a_damping a) _ (p_damping p) q v (c * cl_nq m)); [reflexivity| | |]; intros E; now destruct (B E) as [? [? ?]].
Qed.

(** one point with its own data *)
Definition new_lanes (m : mesh) (op : operation) (a : arrays) (U P : vec) (lin : list (nat -> stored)) (x : nat * nat) (v : nat) : point_out * stored :=
  lane_out (cl_setting m) op (own_point m a (fst x) v (snd x)) (nth (own m (fst x) (snd x)) lin nothing v) U P.
Definition add_u m op a U P lin (x : nat * nat) (i : nat) : R :=
  if constrained_u (cl_setting m) i then 0
  else sumn (cl_active m (fst x)) (fun v => test_velocity (cl_setting m) (own_point m a (fst x) v (snd x)) (fst (new_lanes m op a U P lin x v)) i).
Definition add_p m op a U P lin (x : nat * nat) (i : nat) : R :=
  match op with
  | op_vmult_velocity => 0
  | _ => if constrained_p (cl_setting m) i then 0
         else sumn (cl_active m (fst x)) (fun v => test_pressure (cl_setting m) (own_point m a (fst x) v (snd x)) (fst (new_lanes m op a U P lin x v)) i)
  end.
Definition write m op a U P lin (x : nat * nat) : list (nat -> stored) :=
  match op with op_residual => put lin (own m (fst x) (snd x)) (fun v => snd (new_lanes m op a U P lin x v)) | _ => lin end.
Definition key (m : mesh) (x : nat * nat) := own m (fst x) (snd x).

Lemma point_facts m op a U P c p st q : good m (use_variable a) c p ->
  let st' := point_op m op a U P c p st q in
  l_lin st' = write m op a U P (l_lin st) (c, q) /\
  (forall i, l_u st' i = l_u st i + add_u m op a U P (l_lin st) (c, q) i) /\
  (forall i, l_p st' i = l_p st i + add_p m op a U P (l_lin st) (c, q) i).
Proof.
  intros H st'. assert (L : p_lin p = (c * cl_nq m)%nat) by apply H.
  assert (X : forall v, point_at m a p c v q = own_point m a c v q) by (intros; now apply point_own).
  assert (A : forall v, lane_out (cl_setting m) op (point_at m a p c v q) (nth (p_lin p + q) (l_lin st) nothing v) U P
                        = new_lanes m op a U P (l_lin st) (c, q) v).
  { intros v. unfold new_lanes, own. cbn [fst snd]. now rewrite X, L. }
  unfold st', point_op; cbn [l_lin l_u l_p]. refine (conj _ (conj _ _)).
  - unfold write. destruct op; try reflexivity. unfold own; cbn [fst snd]. rewrite L. rewrite L in A. unfold new_lanes, own; cbn [fst snd].
    (* the written lanes agree as functions of the point *)
    unfold point_at, with_coefficients, own_point, own. fold (use_variable a).
    destruct H as [_ B]. unfold coefficient, own_coefficient.
    destruct (use_variable a) eqn:E; [|reflexivity]. destruct (B eq_refl) as [-> [-> ->]]. reflexivity.
  - intros i. f_equal. unfold add_u. destruct (constrained_u _ i); [reflexivity|]. apply sumn_ext; intros v _. cbn [fst snd]. now rewrite X, <- A, X.
  - intros i. f_equal. unfold add_p. destruct op; try reflexivity; (destruct (constrained_p _ i); [reflexivity|]);
      apply sumn_ext; intros v _; cbn [fst snd]; now rewrite X, <- A, X.
Qed.

(** ** put *)
Lemma put_length {A} (l : list A) : forall i x, length (put l i x) = length l.
Proof. induction l as [|y l IH]; intros [|i] x; cbn; try reflexivity. now rewrite IH. Qed.
Lemma put_other {A} (l : list A) d : forall i j x, i <> j -> nth j (put l i x) d = nth j l d.
Proof. induction l as [|y l IH]; intros [|i] [|j] x H; cbn; try reflexivity; try lia. apply IH. lia. Qed.
Lemma put_here {A} (l : list A) d : forall i x, (i < length l)%nat -> nth i (put l i x) d = x.
Proof. induction l as [|y l IH]; intros [|i] x H; cbn in *; try lia; [reflexivity|]. apply IH. lia. Qed.
Lemma write_length m op a U P lin x : length (write m op a U P lin x) = length lin.
Proof. unfold write. destruct op; try reflexivity. apply put_length. Qed.
Lemma write_other m op a U P lin x k : k <> key m x -> nth k (write m op a U P lin x) nothing = nth k lin nothing.
Proof. intros H. unfold write. destruct op; try reflexivity. apply put_other. unfold key in H. lia. Qed.

(** ** any order of the points *)
Definition runs (m : mesh) (op : operation) (a : arrays) (U P : vec) (l : list (nat * nat)) (st st' : lstate) : Prop :=
  length (l_lin st') = length (l_lin st) /\
  (forall k, ~ In k (map (key m) l) -> nth k (l_lin st') nothing = nth k (l_lin st) nothing) /\
  (forall x, In x l -> (key m x < length (l_lin st))%nat ->
     nth (key m x) (l_lin st') nothing = match op with op_residual => fun v => snd (new_lanes m op a U P (l_lin st) x v) | _ => nth (key m x) (l_lin st) nothing end) /\
  (forall i, l_u st' i = l_u st i + suml l (fun x => add_u m op a U P (l_lin st) x i)) /\
  (forall i, l_p st' i = l_p st i + suml l (fun x => add_p m op a U P (l_lin st) x i)).
Lemma same_entry m op a U P lin lin' x : nth (key m x) lin' nothing = nth (key m x) lin nothing ->
  (forall v, new_lanes m op a U P lin' x v = new_lanes m op a U P lin x v) /\
  (forall i, add_u m op a U P lin' x i = add_u m op a U P lin x i) /\ (forall i, add_p m op a U P lin' x i = add_p m op a U P lin x i) /\
  (fun v => snd (new_lanes m op a U P lin' x v)) = (fun v => snd (new_lanes m op a U P lin x v)).
Proof. unfold key. intros H. unfold add_u, add_p, new_lanes. rewrite H. repeat split. Qed.
Lemma runs_nil m op a U P st : runs m op a U P [] st st.
Proof. refine (conj eq_refl (conj _ (conj _ (conj _ _)))); cbn; intros; try reflexivity; try contradiction; ring. Qed.
Lemma runs_app m op a U P l1 : forall l2 st st1 st2, NoDup (map (key m) (l1 ++ l2)) ->
  runs m op a U P l1 st st1 -> runs m op a U P l2 st1 st2 -> runs m op a U P (l1 ++ l2) st st2.
Proof.
  intros l2 st st1 st2 ND [A1 [B1 [C1 [D1 E1]]]] [A2 [B2 [C2 [D2 E2]]]].
  rewrite map_app in ND.
  assert (dis : forall k, In k (map (key m) l1) -> In k (map (key m) l2) -> False).
  { intros k H1 H2. revert ND H1. generalize (map (key m) l1). intros w. induction w as [|y w IH]; cbn; [tauto|].
    intros ND [->|H1]; inversion ND as [|? ? N1 N2]; subst; [apply N1; apply in_or_app; now right|auto]. }
  assert (same : forall x, In x l2 -> nth (key m x) (l_lin st1) nothing = nth (key m x) (l_lin st) nothing).
  { intros x Hx. apply B1. intros H1. apply (dis (key m x)); [exact H1|now apply in_map]. }
  refine (conj _ (conj _ (conj _ (conj _ _)))).
  - now rewrite A2.
  - intros k H. rewrite map_app in H. rewrite B2, B1; [reflexivity| |]; intros X; apply H; apply in_or_app; tauto.
  - intros x Hx L. apply in_app_or in Hx. destruct Hx as [Hx|Hx].
    + rewrite B2; [now apply C1|]. intros H2. apply (dis (key m x)); [now apply in_map|exact H2].
    + rewrite C2; [|exact Hx|now rewrite A1]. destruct (same_entry m op a U P _ _ x (same x Hx)) as [_ [_ [_ F]]].
      destruct op; [exact F|apply same; exact Hx|apply same; exact Hx].
  - intros i. rewrite D2, D1, suml_app.
    rewrite (suml_ext l2 (fun x => add_u m op a U P (l_lin st1) x i) (fun x => add_u m op a U P (l_lin st) x i)); [ring|].
    intros x Hx. apply (same_entry m op a U P _ _ x (same x Hx)).
  - intros i. rewrite E2, E1, suml_app.
    rewrite (suml_ext l2 (fun x => add_p m op a U P (l_lin st1) x i) (fun x => add_p m op a U P (l_lin st) x i)); [ring|].
    intros x Hx. apply (same_entry m op a U P _ _ x (same x Hx)).
Qed.
Lemma runs_one m op a U P c p st q : good m (use_variable a) c p -> runs m op a U P [(c, q)] st (point_op m op a U P c p st q).
Proof.
  intros H. destruct (point_facts m op a U P c p st q H) as [A [B C]]. refine (conj _ (conj _ (conj _ (conj _ _)))).
  - rewrite A. apply write_length.
  - intros k N. rewrite A. apply write_other. cbn in N. intuition.
  - intros x [<-|[]] L. rewrite A. unfold write, key in *; cbn [fst snd] in *. destruct op; try reflexivity. now apply put_here.
  - intros i. rewrite B. cbn. ring.
  - intros i. rewrite C. cbn. ring.
Qed.
Definition batch_points (m : mesh) (c : nat) : list (nat * nat) := map (pair c) (seq 0 (cl_nq m)).
Lemma keys_batch m c n b : map (key m) (map (pair c) (seq b n)) = seq (c * cl_nq m + b) n.
Proof.
  revert b. induction n as [|n IH]; intros b; cbn; [reflexivity|]. rewrite IH. change (key m (c, b)) with (c * cl_nq m + b)%nat. f_equal. f_equal. lia.
Qed.
Lemma runs_points m op a U P c p : good m (use_variable a) c p -> forall n b st,
  runs m op a U P (map (pair c) (seq b n)) st (fold_left (point_op m op a U P c p) (seq b n) st).
Proof.
  intros H n. induction n as [|n IH]; intros b st; cbn [seq map fold_left]; [apply runs_nil|].
  change ((c, b) :: map (pair c) (seq (Datatypes.S b) n)) with ([(c, b)] ++ map (pair c) (seq (Datatypes.S b) n)).
  apply runs_app with (st1 := point_op m op a U P c p st b); [|now apply runs_one|apply IH].
  change ([(c, b)] ++ map (pair c) (seq (Datatypes.S b) n)) with (map (pair c) (seq b (Datatypes.S n))). rewrite keys_batch. apply seq_NoDup.
Qed.
Lemma runs_batch m op a U P c p st : good m (use_variable a) c p -> runs m op a U P (batch_points m c) st (batch_op m op a U P st (c, p)).
Proof. intros H. apply runs_points. exact H. Qed.
Lemma keys_nodup m cs : NoDup cs -> NoDup (map (key m) (flat_map (batch_points m) cs)).
Proof.
  intros H. induction H as [|c cs N D IH]; cbn; [constructor|]. rewrite map_app.
  unfold batch_points at 1. rewrite keys_batch. apply Properties_GlobalMatrix.NoDup_app_intro; [apply seq_NoDup|exact IH|].
  intros k H1 H2. apply in_seq in H1. apply in_map_iff in H2. destruct H2 as [[c' q] [<- H2]]. apply in_flat_map in H2.
  destruct H2 as [c2 [X Y]]. unfold batch_points in Y. apply in_map_iff in Y. destruct Y as [q' [E Z]]. injection E as -> ->.
  apply in_seq in Z. unfold key, own in H1; cbn [fst snd] in H1. apply N. replace c with c'; [exact X|]. nia.
Qed.
Lemma runs_schedule m op a U P : forall sch st, Forall (fun t => good m (use_variable a) (fst t) (snd t)) sch -> NoDup (map fst sch) ->
  runs m op a U P (flat_map (batch_points m) (map fst sch)) st (scheduled_loop m op a U P sch st).
Proof.
  induction sch as [|[c p] sch IH]; intros st F N; [apply runs_nil|].
  inversion F as [|? ? F1 F2]; subst. cbn [map fst flat_map]. cbn [map fst] in N.
  apply runs_app with (st1 := batch_op m op a U P st (c, p)).
  - apply (keys_nodup m (c :: map fst sch) N).
  - now apply runs_batch.
  - inversion N; subst. apply IH; assumption.
Qed.
Lemma legal_runs m op a U P ranges sch st : legal m a ranges sch ->
  exists cs, Permutation cs (seq 0 (cl_batches m)) /\ runs m op a U P (flat_map (batch_points m) cs) st (scheduled_loop m op a U P sch st).
Proof.
  intros [Hp Hs]. exists (map fst sch). destruct (tasks_good m a ranges) as [A B].
  assert (X : Permutation (map fst sch) (seq 0 (cl_batches m))).
  { eapply Permutation_trans; [apply Permutation_map; exact Hs|]. rewrite B. exact Hp. }
  split; [exact X|]. apply runs_schedule.
  - apply Forall_forall. intros t Ht. rewrite Forall_forall in A. apply A. eapply Permutation_in; [exact Hs|exact Ht].
  - eapply Permutation_NoDup; [apply Permutation_sym; exact X|apply seq_NoDup].
Qed.

(** ** sums over the mesh *)
Lemma sum_mesh m a lin (f : qpoint -> stored -> R) :
  suml (mesh_points m a lin) (fun ql => f (fst ql) (snd ql)) =
  suml (flat_map (batch_points m) (seq 0 (cl_batches m))) (fun x => sumn (cl_active m (fst x)) (fun v =>
    f (own_point m a (fst x) v (snd x)) (nth (key m x) lin nothing v))).
Proof.
  unfold mesh_points. rewrite !Properties_SharpInterface.suml_flat_map. apply suml_ext; intros c _.
  rewrite Properties_SharpInterface.suml_flat_map. unfold batch_points. rewrite suml_map. apply suml_ext; intros q _.
  rewrite suml_map. cbn [fst snd]. apply Properties_InteriorPenalty.sumn_seq.
Qed.
Lemma perm_points m cs n : Permutation cs (seq 0 n) -> Permutation (flat_map (batch_points m) cs) (flat_map (batch_points m) (seq 0 n)).
Proof. intros H. apply Permutation_flat_map. exact H. Qed.
Lemma result_u m op a U P ranges sch st i : legal m a ranges sch ->
  l_u (scheduled_loop m op a U P sch st) i = l_u st i + (if constrained_u (cl_setting m) i then 0 else
    suml (mesh_points m a (l_lin st)) (fun ql => test_velocity (cl_setting m) (fst ql) (fst (lane_out (cl_setting m) op (fst ql) (snd ql) U P)) i)).
Proof.
  intros H. destruct (legal_runs m op a U P ranges sch st H) as [cs [Pm [_ [_ [_ [D _]]]]]]. rewrite D. f_equal.
  rewrite (Properties_SharpInterface.suml_perm _ _ _ (perm_points m cs _ Pm)).
  rewrite (sum_mesh m a (l_lin st) (fun x l => test_velocity (cl_setting m) x (fst (lane_out (cl_setting m) op x l U P)) i)).
  unfold add_u, new_lanes, key. destruct (constrained_u (cl_setting m) i); [apply suml_zero; reflexivity|reflexivity].
Qed.
Lemma result_p m op a U P ranges sch st i : legal m a ranges sch ->
  l_p (scheduled_loop m op a U P sch st) i = l_p st i + (match op with op_vmult_velocity => 0 | _ => if constrained_p (cl_setting m) i then 0 else
    suml (mesh_points m a (l_lin st)) (fun ql => test_pressure (cl_setting m) (fst ql) (fst (lane_out (cl_setting m) op (fst ql) (snd ql) U P)) i) end).
Proof.
  intros H. destruct (legal_runs m op a U P ranges sch st H) as [cs [Pm [_ [_ [_ [_ E]]]]]]. rewrite E. f_equal.
  rewrite (Properties_SharpInterface.suml_perm _ _ _ (perm_points m cs _ Pm)).
  rewrite (sum_mesh m a (l_lin st) (fun x l => test_pressure (cl_setting m) x (fst (lane_out (cl_setting m) op x l U P)) i)).
  unfold add_p, new_lanes, key. destruct op; [| |apply suml_zero; reflexivity];
    (destruct (constrained_p (cl_setting m) i); [apply suml_zero; reflexivity|reflexivity]).
Qed.
Lemma keep_lin m op a U P sch : op <> op_residual -> forall st, l_lin (scheduled_loop m op a U P sch st) = l_lin st.
Proof.
  intros N. assert (Q : forall c p qs st, l_lin (fold_left (point_op m op a U P c p) qs st) = l_lin st).
  { intros c p qs. induction qs as [|q qs IH]; intros st; cbn [fold_left]; [reflexivity|]. rewrite IH. unfold point_op; cbn [l_lin].
    destruct op; [congruence|reflexivity|reflexivity]. }
  unfold scheduled_loop. induction sch as [|t sch IH]; intros st; cbn [fold_left]; [reflexivity|]. rewrite IH. unfold batch_op. apply Q.
Qed.
Lemma dot_ext n w a b : (forall i, a i = b i) -> dot n w a = dot n w b.
Proof. intros H. unfold dot. apply sumn_ext; intros i _. now rewrite H. Qed.
Lemma project_ext n md a b : (forall i, a i = b i) -> forall i, project_mode n md a i = project_mode n md b i.
Proof. intros H i. unfold project_mode. destruct md as [md|]; [|apply H]. cbv zeta. now rewrite H, (dot_ext n _ a b H). Qed.
Lemma average_ext s m0 m1 a b : (forall i, a i = b i) -> forall i, average_projection s m0 m1 a i = average_projection s m0 m1 b i.
Proof.
  intros H i. unfold average_projection. destruct (negb _ && negb _); [|apply H]. apply project_ext. now apply project_ext.
Qed.

(** ** C123 *)
(** A matrix-vector product gives the product with the operator of C24-C26 on the points of the mesh with their own coefficients and
    their own linearization point, and leaves the linearization point alone, whatever ranges and whatever schedule are used. *)
Theorem C123_vmult : forall m a m0 m1 ranges schedule lin U P, legal m a ranges schedule ->
  let '(dst, lin') := loop_vmult m a m0 m1 schedule lin U P in
  let spec := vmult (cl_setting m) m0 m1 (mesh_points m a lin) U P in
  (forall i, fst dst i = fst spec i) /\ (forall i, snd dst i = snd spec i) /\ lin' = lin.
Proof.
  intros m a m0 m1 ranges schedule lin U P H. unfold loop_vmult, vmult. cbv zeta. cbn [fst snd]. refine (conj _ (conj _ _)).
  - intros i. rewrite (result_u _ _ _ _ _ _ _ _ _ H). destruct (constrained_u (cl_setting m) i); [reflexivity|]. cbn [l_u l_lin]. change (Model_CellLoop.zero i) with 0.
    rewrite suml_map. cbn [fst snd]. unfold lane_out. cbn [fst snd]. ring.
  - apply average_ext. intros i. rewrite (result_p _ _ _ _ _ _ _ _ _ H). destruct (constrained_p (cl_setting m) i); [reflexivity|].
    cbn [l_p l_lin]. change (Model_CellLoop.zero i) with 0. rewrite suml_map. cbn [fst snd]. unfold lane_out. cbn [fst snd]. ring.
  - now apply keep_lin.
Qed.
Print Assumptions C123_vmult.
Theorem C123_velocity_vmult : forall m a ranges schedule lin U, legal m a ranges schedule ->
  let '(dst, lin') := loop_velocity_vmult m a schedule lin U in
  (forall i, dst i = velocity_vmult (cl_setting m) (mesh_points m a lin) U i) /\ lin' = lin.
Proof.
  intros m a ranges schedule lin U H. unfold loop_velocity_vmult, velocity_vmult. cbv zeta. split.
  - intros i. rewrite (result_u _ _ _ _ _ _ _ _ _ H). destruct (constrained_u (cl_setting m) i); [reflexivity|]. cbn [l_u l_lin]. change (Model_CellLoop.zero i) with 0.
    unfold lane_out. cbn [fst snd]. ring.
  - now apply keep_lin.
Qed.
Print Assumptions C123_velocity_vmult.

(** The residual: the vector and the new linearization point are those of C24 and C27 for the points of the mesh. The linearization point
    is allocated, or it is not allocated and not needed (explicit convection or Stokes flow, C27). *)
Definition allocated (m : mesh) (lin : list (nat -> stored)) : Prop :=
  length lin = (cl_batches m * cl_nq m)%nat \/
  lin = [] /\ (is_explicit (s_lin (cl_setting m)) = true \/ is_stokes_type (s_type (cl_setting m)) = true).
Lemma nothing_to_store s x u g p l : is_explicit (s_lin s) = true \/ is_stokes_type (s_type s) = true -> snd (residual_point s x u g p l) = l.
Proof.
  intros H. unfold residual_point. cbv zeta. destruct (is_stokes_type (s_type s)) eqn:E.
  - destruct (need_extrapolated (s_lin s)); [destruct (is_explicit (s_lin s))|]; reflexivity.
  - destruct H as [H|H]; [|discriminate]. rewrite H. destruct (s_lin s); try discriminate. reflexivity.
Qed.
Theorem C123_residual : forall m a m0 m1 ranges schedule lin cu cp uu up U P, legal m a ranges schedule -> allocated m lin ->
  let '(dst, lin') := loop_residual m a m0 m1 schedule lin cu cp uu up U P in
  let spec := residual (cl_setting m) m0 m1 (mesh_points m a lin) cu cp uu up U P in
  (forall i, fst dst i = fst (fst spec) i) /\ (forall i, snd dst i = snd (fst spec) i) /\
  mesh_points m a lin' = snd spec /\ length lin' = length lin.
Proof.
  intros m a m0 m1 ranges schedule lin cu cp uu up U P H HA. unfold loop_residual, residual. cbv zeta. cbn [fst snd].
  refine (conj _ (conj _ (conj _ _))).
  - intros i. rewrite (result_u _ _ _ _ _ _ _ _ _ H). cbn [l_u l_lin]. rewrite suml_map. cbn [fst snd]. unfold lane_out.
    destruct (constrained_u (cl_setting m) i); reflexivity.
  - apply average_ext. intros i. rewrite (result_p _ _ _ _ _ _ _ _ _ H). cbn [l_p l_lin]. rewrite suml_map. cbn [fst snd]. unfold lane_out.
    destruct (constrained_p (cl_setting m) i); reflexivity.
  - destruct (legal_runs m op_residual a U P ranges schedule (MkL lin cu cp) H) as [cs [Pm [L [_ [C _]]]]]. cbn [l_lin] in *.
    set (lin' := l_lin _) in *. clearbody lin'.
    rewrite !map_map. cbn [fst snd]. unfold mesh_points. rewrite !flat_map_concat_map, concat_map, map_map. f_equal.
    apply map_ext_in. intros c Hc. rewrite !flat_map_concat_map, concat_map, map_map. f_equal. apply map_ext_in. intros q Hq.
    rewrite map_map. apply map_ext_in. intros v _. cbn [fst snd]. f_equal.
    apply in_seq in Hc. apply in_seq in Hq. destruct HA as [HA|[-> HA]].
    + pose proof (C (c, q)) as Cq. unfold key in Cq; cbn [fst snd] in Cq. rewrite Cq; [reflexivity| |].
      * apply in_flat_map. exists c. split; [eapply Permutation_in; [apply Permutation_sym; exact Pm|apply in_seq; lia]|].
        apply in_map, in_seq. lia.
      * rewrite HA. unfold own. nia.
    + destruct lin'; [|discriminate]. rewrite nothing_to_store; [reflexivity|exact HA].
  - destruct (legal_runs m op_residual a U P ranges schedule (MkL lin cu cp) H) as [cs [_ [L _]]]. exact L.
Qed.
Print Assumptions C123_residual.

(** the loop of one thread, range after range, is one of the legal schedules *)
Lemma range_loop_tasks m op a U P n : forall c p st,
  range_loop m op a U P n c p st = scheduled_loop m op a U P (range_tasks m a n c p) st.
Proof. induction n as [|n IH]; intros c p st; cbn; [reflexivity|]. rewrite IH. reflexivity. Qed.
Theorem C123_one_thread : forall m op a U P ranges st,
  cell_loop m op a U P ranges st = scheduled_loop m op a U P (flat_map (tasks m a) ranges) st.
Proof.
  intros m op a U P ranges. unfold cell_loop, scheduled_loop. induction ranges as [|r l IH]; intros st; cbn [fold_left flat_map]; [reflexivity|].
  rewrite fold_left_app, IH. f_equal. unfold local_operation, tasks. rewrite range_loop_tasks. reflexivity.
Qed.
Print Assumptions C123_one_thread.

(** Two executions with different ranges and schedules agree. *)
Theorem C123_schedule : forall m op a U P ranges1 schedule1 ranges2 schedule2 st, legal m a ranges1 schedule1 -> legal m a ranges2 schedule2 ->
  allocated m (l_lin st) ->
  let st1 := scheduled_loop m op a U P schedule1 st in let st2 := scheduled_loop m op a U P schedule2 st in
  (forall i, l_u st1 i = l_u st2 i) /\ (forall i, l_p st1 i = l_p st2 i) /\ mesh_points m a (l_lin st1) = mesh_points m a (l_lin st2).
Proof.
  intros m op a U P r1 s1 r2 s2 st H1 H2 HA. cbv zeta. refine (conj _ (conj _ _)).
  - intros i. now rewrite (result_u _ _ _ _ _ _ _ _ _ H1), (result_u _ _ _ _ _ _ _ _ _ H2).
  - intros i. now rewrite (result_p _ _ _ _ _ _ _ _ _ H1), (result_p _ _ _ _ _ _ _ _ _ H2).
  - destruct op; [|now rewrite !keep_lin|now rewrite !keep_lin]. destruct st as [lin u p]. cbn [l_lin] in HA.
    pose proof (C123_residual m a None None r1 s1 lin u p zero zero U P H1 HA) as A.
    pose proof (C123_residual m a None None r2 s2 lin u p zero zero U P H2 HA) as B.
    unfold loop_residual in A, B. cbv zeta in A, B. destruct A as [_ [_ [A _]]]. destruct B as [_ [_ [B _]]]. now rewrite A, B.
Qed.
Print Assumptions C123_schedule.

(** ** The matrices of the preconditioner: every entry is the sum over all cells of the local matrix with the data of that cell. *)
Theorem C123_preconditioner : forall m a lin loc ranges i j, partition m ranges -> (lin = [] -> forall c v f g r k d, loc c v f r k d i j = loc c v g r k d i j) ->
  assemble m a lin loc ranges i j =
  sumn (cl_batches m) (fun c => sumn (cl_active m c) (fun v =>
    loc c v (fun q => nth (own m c q) lin nothing v)
        (fun q => own_coefficient (has_entries (a_mu a)) (a_rho a) (cl_density m) (own m c q) v)
        (fun q => own_coefficient (has_entries (a_mu a)) (a_mu a) (cl_viscosity m) (own m c q) v)
        (fun q => own_coefficient (has_entries (a_mu a)) (a_damping a) (cl_damping m) (own m c q) v) i j)).
Proof.
  intros m a lin loc ranges i j Hp He.
  set (one := fun c => sumn (cl_active m c) (fun v => loc c v (fun q => nth (own m c q) lin nothing v)
        (fun q => own_coefficient (has_entries (a_mu a)) (a_rho a) (cl_density m) (own m c q) v)
        (fun q => own_coefficient (has_entries (a_mu a)) (a_mu a) (cl_viscosity m) (own m c q) v)
        (fun q => own_coefficient (has_entries (a_mu a)) (a_damping a) (cl_damping m) (own m c q) v) i j)).
  change (assemble m a lin loc ranges i j = sumn (cl_batches m) one).
  assert (batch : forall mat c p, (has_entries lin = true -> p_lin p = (c * cl_nq m)%nat) ->
    (has_entries (a_mu a) = true -> p_rho p = (c * cl_nq m)%nat /\ p_mu p = (c * cl_nq m)%nat /\ p_damping p = (c * cl_nq m)%nat) ->
    assemble_batch m a lin loc mat c p i j = mat i j + one c).
  { intros mat c p A B. unfold assemble_batch, one, matrix_variable. f_equal. apply sumn_ext; intros v _.
    unfold coefficient, own_coefficient, own.
    assert (W : forall r k d, loc c v (fun q => nth (p_lin p + q) lin nothing v) r k d i j =
                              loc c v (fun q => nth (c * cl_nq m + q) lin nothing v) r k d i j).
    { intros r k d. destruct lin as [|x lin]; [now apply He|]. now rewrite (A eq_refl). }
    rewrite W. destruct (has_entries (a_mu a)); [|reflexivity]. destruct (B eq_refl) as [-> [-> ->]]. reflexivity. }
  assert (range : forall n c p mat, (has_entries lin = true -> p_lin p = (c * cl_nq m)%nat) ->
    (has_entries (a_mu a) = true -> p_rho p = (c * cl_nq m)%nat /\ p_mu p = (c * cl_nq m)%nat /\ p_damping p = (c * cl_nq m)%nat) ->
    assemble_range m a lin loc n c p mat i j = mat i j + suml (seq c n) one).
  { induction n as [|n IH]; intros c p mat A B; cbn [assemble_range seq suml]; [cbn; ring|].
    rewrite IH.
    - rewrite (batch mat c p A B). cbn. ring.
    - unfold advance; cbn [p_lin]. intros E. rewrite E, (A E). lia.
    - unfold advance, matrix_variable; cbn [p_rho p_mu p_damping]. intros E. rewrite E. destruct (B E) as [-> [-> ->]]. lia. }
  assert (all : forall l mat, fold_left (fun mat r => assemble_range m a lin loc (snd r - fst r) (fst r) (start m (fst r)) mat) l mat i j =
    mat i j + suml (flat_map (fun r => seq (fst r) (snd r - fst r)) l) one).
  { induction l as [|r l IH]; intros mat; cbn [fold_left flat_map]; [cbn; ring|]. rewrite IH, suml_app, range.
    - ring.
    - intros _. reflexivity.
    - intros _. cbn. lia. }
  unfold assemble. rewrite all, (Properties_SharpInterface.suml_perm _ _ _ Hp).
  rewrite Properties_InteriorPenalty.sumn_seq. ring.
Qed.
Print Assumptions C123_preconditioner.

(** ** The hypotheses are met: three batches with two lanes (one in the last), two points per batch, variable densities; the ranges [1,3)
    and [0,1) worked on in the order 2, 0, 1, or a single range.  The diagonal of the operator is the weighted sum of the densities. *)
Definition ex_setting : setting :=
  MkSetting 1 1 1 (fun _ => false) (fun _ => false) incompressible coupled_velocity_explicit (1/2) 1 0 0 1 1 0 0.
Definition ex_mesh : mesh :=
  MkMesh ex_setting 3 2 (fun c => if Nat.eqb c 2 then 1%nat else 2%nat)
    (fun _ _ _ => MkPoint 1 (fun _ _ => 1) (fun _ _ _ => 0) (fun _ => 1) 0 0 0 (fun _ => 0) (fun _ _ => 0) (fun _ => 0) (fun _ _ => 0)) 1 1 0.
Definition ex_arrays : arrays :=
  MkArrays [fun v => INR (1 + v); fun _ => 3; fun _ => 5; fun _ => 7; fun _ => 11; fun _ => 13] (repeat (fun _ => 1) 6) (repeat (fun _ => 0) 6).
Definition ex_ranges : list (nat * nat) := [(1, 3); (0, 1)]%nat.
Definition ex_schedule : list (nat * pointers) := [(2, MkPtr 4 4 4 4); (0, MkPtr 0 0 0 0); (1, MkPtr 2 2 2 2)]%nat.
Example C123_nonvacuous :
  legal ex_mesh ex_arrays ex_ranges ex_schedule /\ legal ex_mesh ex_arrays [(0, 3)%nat] (tasks ex_mesh ex_arrays (0, 3)%nat) /\
  allocated ex_mesh [] /\ allocated ex_mesh (repeat nothing 6) /\
  fst (loop_velocity_vmult ex_mesh ex_arrays ex_schedule [] (fun _ => 1)) 0%nat = 57.
Proof.
  refine (conj _ (conj _ (conj _ (conj _ _)))).
  - split; cbn.
    + change [1; 2; 0]%nat with ([1; 2] ++ [0])%nat. change [0; 1; 2]%nat with ([0] ++ [1; 2])%nat. apply Permutation_app_comm.
    + change (Permutation ([(2, MkPtr 4 4 4 4); (0, MkPtr 0 0 0 0)] ++ [(1, MkPtr 2 2 2 2)])%nat
                          ([(1, MkPtr 2 2 2 2)] ++ [(2, MkPtr 4 4 4 4); (0, MkPtr 0 0 0 0)])%nat). apply Permutation_app_comm.
  - split; [cbn; apply Permutation_refl|]. cbn [flat_map]. rewrite app_nil_r. apply Permutation_refl.
  - right. split; [reflexivity|left; reflexivity].
  - left. reflexivity.
  - destruct (C123_velocity_vmult ex_mesh ex_arrays ex_ranges ex_schedule [] (fun _ => 1)) as [E _].
    { split; cbn.
      + change [1; 2; 0]%nat with ([1; 2] ++ [0])%nat. change [0; 1; 2]%nat with ([0] ++ [1; 2])%nat. apply Permutation_app_comm.
      + change (Permutation ([(2, MkPtr 4 4 4 4); (0, MkPtr 0 0 0 0)] ++ [(1, MkPtr 2 2 2 2)])%nat
                            ([(1, MkPtr 2 2 2 2)] ++ [(2, MkPtr 4 4 4 4); (0, MkPtr 0 0 0 0)])%nat). apply Permutation_app_comm. }
    etransitivity; [exact (E 0%nat)|]. cbn. unfold test_velocity, vmult_point, stress, trace, time_step_weight, eval_value, eval_gradient, masked. cbn. lra.
Qed.
Example C123_nonvacuous_preconditioner : partition ex_mesh ex_ranges /\
  assemble ex_mesh ex_arrays [] (fun _ _ _ r _ _ _ _ => r 0%nat + r 1%nat) ex_ranges 0 0 = 57.
Proof.
  assert (H : partition ex_mesh ex_ranges).
  { unfold partition; cbn. change [1; 2; 0]%nat with ([1; 2] ++ [0])%nat. change [0; 1; 2]%nat with ([0] ++ [1; 2])%nat. apply Permutation_app_comm. }
  split; [exact H|]. rewrite C123_preconditioner; [|exact H|reflexivity]. cbn. unfold own_coefficient, own. cbn. lra.
Qed.
