(** * C105: the matrix behind the Cahn-Hilliard preconditioner *)
From Coq Require Import Reals List Bool Arith Lia Lra.
From Verif Require Import Num SumR Model_TimeStepping Model_ProjectionMatrix Model_GlobalMatrix Model_Blocks Model_PhaseFieldMatrix Properties_ProjectionMatrix Properties_GlobalMatrix.
From Verif Require Proofs_TimeStepping.
Import ListNotations.
Open Scope R_scope.

(** ** Specification *)
(** the matrix that belongs to a mesh, surface tension, diffusion length and weight: everything built from scratch *)
Definition from_scratch (p : chmat) (m : chmesh) (w : R) : option matrix :=
  add_terms (ch_pattern m) (me_con m) (map (ch_term (cm_dim p) (sqrt (3/4 * cm_sigma p * me_eps m * (cm_length p * cm_length p) / w))) (me_cells m)) (fun _ _ => 0).
Definition own_calls (h : list event) : Prop := ~ In Foreign h.
(** the clock after a history: what the user set, one advance per time step *)
Fixpoint clock_after (c : clock RNum) (h : list event) : clock RNum :=
  match h with
  | [] => c
  | Setup _ :: h => clock_after (restart c) h
  | SetStep v :: h => clock_after (set_time_step c v) h
  | SetDesired v :: h => clock_after (set_desired_time_step c v) h
  | SetFinal v :: h => clock_after (set_final_time c v) h
  | Step :: h => clock_after (next c) h
  | Foreign :: h => clock_after (next c) h
  | Refine _ :: h => clock_after c h
  end.
Definition meshes (h : list event) : list chmesh := flat_map (fun e => match e with Setup m => [m] | Refine (Some m) => [m] | _ => [] end) h.

Lemma coefficient_same p m w : ch_coefficient (cm_sigma p) (me_eps m) (cm_length p) w = sqrt (3/4 * cm_sigma p * me_eps m * (cm_length p * cm_length p) / w).
Proof. unfold ch_coefficient. f_equal. unfold Rdiv. replace (75 * / 100) with (3 * / 4) by lra. ring. Qed.
(** invariant between the calls: a pattern that is there belongs to the mesh, and then the matrix is current *)
Definition inv (p : chmat) (f : pf) : Prop :=
  (0 < me_n (f_mesh f))%nat /\
  (f_pattern f = None \/ f_pattern f = Some (me_n (f_mesh f), ch_pattern (f_mesh f)) /\ f_matrix f = from_scratch p (f_mesh f) (weight (f_clock f))).
Lemma create_current p f : (0 < me_n (f_mesh f))%nat -> f_pattern f = None \/ f_pattern f = Some (me_n (f_mesh f), ch_pattern (f_mesh f)) ->
  f_matrix (create_preconditioner p f) = from_scratch p (f_mesh f) (weight (f_clock f)) /\
  f_pattern (create_preconditioner p f) = Some (me_n (f_mesh f), ch_pattern (f_mesh f)).
Proof.
  intros HN HP. unfold create_preconditioner, rows, from_scratch. cbn [f_matrix f_pattern]. rewrite coefficient_same.
  destruct HP as [->| ->]; cbn [fst snd Nat.eqb]; [auto|]. destruct (Nat.eqb_spec (me_n (f_mesh f)) 0); [lia|auto].
Qed.
Lemma step_current p f : inv p f -> let g := react p f Step in
  inv p g /\ f_mesh g = f_mesh f /\ f_clock g = next (f_clock f) /\ f_matrix g = from_scratch p (f_mesh g) (weight (f_clock g)).
Proof.
  intros [HN HP] g. unfold g. cbn [react]. unfold check_preconditioner. set (f1 := on_clock next f).
  assert (HP1 : f_pattern f1 = None \/ f_pattern f1 = Some (me_n (f_mesh f1), ch_pattern (f_mesh f1))) by (destruct HP as [HP|[HP _]]; auto).
  pose proof (create_current p f1 HN HP1) as [C1 C2].
  destruct (weight_has_changed (f_clock f1)) eqn:EW; cbn [orb].
  - split; [split; [exact HN|right; split; [exact C2|exact C1]]|]. split; [reflexivity|]. split; [reflexivity|]. exact C1.
  - destruct (Nat.eqb_spec (rows f1) (me_n (f_mesh f1))) as [ER|ER]; cbn [negb].
    + assert (S : f_pattern f1 = Some (me_n (f_mesh f1), ch_pattern (f_mesh f1)) /\ f_matrix f1 = from_scratch p (f_mesh f1) (weight (f_clock f1))).
      { destruct HP as [HP|[HP HM]].
        - exfalso. unfold rows, f1 in ER. cbn [on_clock f_pattern f_mesh] in ER. rewrite HP in ER. lia.
        - split; [exact HP|]. cbn [f1 on_clock f_matrix f_mesh f_clock]. rewrite HM. f_equal. symmetry.
          apply (proj1 (Proofs_TimeStepping.weight_changed_exact (f_clock f))). exact EW. }
      split; [split; [exact HN|right; exact S]|]. split; [reflexivity|]. split; [reflexivity|]. apply S.
    + split; [split; [exact HN|right; split; [exact C2|exact C1]]|]. split; [reflexivity|]. split; [reflexivity|]. exact C1.
Qed.
Lemma react_inv p f e : inv p f -> e <> Foreign -> (forall m, In m (meshes [e]) -> (0 < me_n m)%nat) -> inv p (react p f e).
Proof.
  intros [HN HP] HF HM. destruct e as [m|[m|]|v|v|v| |].
  - split; [apply HM; cbn; auto|left; reflexivity].
  - split; [apply HM; cbn; auto|left; reflexivity].
  - split; [exact HN|exact HP].
  - split; [exact HN|]. destruct HP as [HP|[HP HQ]]; [left; exact HP|right; split; [exact HP|exact HQ]].
  - split; [exact HN|]. destruct HP as [HP|[HP HQ]]; [left; exact HP|right; split; [exact HP|exact HQ]].
  - split; [exact HN|]. destruct HP as [HP|[HP HQ]]; [left; exact HP|right; split; [exact HP|exact HQ]].
  - apply step_current. split; assumption.
  - congruence.
Qed.
Lemma reacts_inv p h : forall f, inv p f -> own_calls h -> (forall m, In m (meshes h) -> (0 < me_n m)%nat) -> inv p (reacts p f h).
Proof.
  induction h as [|e h IH]; intros f HI HO HM; [exact HI|]. cbn [reacts fold_left]. apply IH.
  - apply react_inv; [exact HI|intros ->; apply HO; left; reflexivity|]. intros m I. apply HM. unfold meshes in *. cbn [flat_map] in *. rewrite app_nil_r in I. apply in_or_app. left. exact I.
  - intros I. apply HO. right. exact I.
  - intros m I. apply HM. unfold meshes in *. cbn [flat_map]. apply in_or_app. right. exact I.
Qed.
(** in every history, the preconditioner of every time step comes from the matrix of the present mesh and the present weight, built from
    scratch *)
Theorem C105_current : forall p c m0 h, (0 < me_n m0)%nat -> own_calls h -> (forall m, In m (meshes h) -> (0 < me_n m)%nat) ->
  let f := reacts p (pf_init c m0) (h ++ [Step]) in
  f_mesh f = last (meshes h) m0 /\ f_matrix f = from_scratch p (f_mesh f) (weight (f_clock f)) /\
  f_clock f = next (clock_after c h).
Proof.
  intros p c m0 h H0 HO HM f.
  assert (I0 : inv p (pf_init c m0)) by (split; [exact H0|left; reflexivity]).
  pose proof (reacts_inv p h _ I0 HO HM) as I1.
  assert (E : f = react p (reacts p (pf_init c m0) h) Step) by (unfold f, reacts; rewrite fold_left_app; reflexivity).
  pose proof (step_current p _ I1) as S. cbv zeta in S. rewrite <- E in S. destruct S as (_ & S1 & S2 & S3).
  assert (K : forall h f, f_clock (reacts p f h) = clock_after (f_clock f) h).
  { clear. induction h as [|e h IH]; intros f; [reflexivity|]. cbn [reacts fold_left]. change (fold_left (react p) h (react p f e)) with (reacts p (react p f e) h). rewrite IH.
    destruct e as [m|[m|]|v|v|v| |]; cbn [clock_after]; try reflexivity. unfold react, check_preconditioner. destruct (_ || _); reflexivity. }
  split; [|split; [exact S3|rewrite S2, K; reflexivity]]. rewrite S1.
  clear -HO. assert (G : forall h f, f_mesh (reacts p f h) = last (meshes h) (f_mesh f)).
  { clear. induction h as [|e h IH]; intros f; [reflexivity|]. cbn [reacts fold_left]. change (fold_left (react p) h (react p f e)) with (reacts p (react p f e) h). rewrite IH.
    assert (L : forall (A : Type) (a : A) l d, last (a :: l) d = last l a). { clear. intros A a l. revert a. induction l as [|b l IH]; intros a d; [reflexivity|]. change (last (b :: l) d = last (b :: l) a). rewrite !IH. reflexivity. }
    unfold meshes. cbn [flat_map]. destruct e as [m|[m|]|v|v|v| |]; cbn [app]; try (rewrite L; reflexivity); try reflexivity.
    unfold react, check_preconditioner. destruct (_ || _); reflexivity. }
  rewrite G. reflexivity.
Qed.
Print Assumptions C105_current.
(** the flag only remembers the last change of the weight: a call of init_time_advance that is not part of a time step hides a change *)
Theorem C105_violation_foreign : forall p f, f_pattern f = Some (me_n (f_mesh f), ch_pattern (f_mesh f)) ->
  weight_has_changed (next (next (f_clock f))) = false ->
  let g := reacts p f [Foreign; Step] in f_matrix g = f_matrix f /\ weight (f_clock g) = weight (next (f_clock f)).
Proof.
  intros p f HP HW g. unfold g. cbn [reacts fold_left react]. unfold check_preconditioner. cbn [on_clock f_clock f_mesh f_pattern rows].
  unfold rows. cbn [f_pattern on_clock]. rewrite HP, HW. cbn [fst]. rewrite Nat.eqb_refl. cbn [orb negb f_matrix f_clock on_clock].
  split; [reflexivity|]. apply (proj1 (Proofs_TimeStepping.weight_changed_exact _)). exact HW.
Qed.
Print Assumptions C105_violation_foreign.

(** ** What the matrix is *)
(** a function given by its unknowns, on a cell: value and derivative at a point; the basis function of an unknown *)
Definition point_value (con : constraints) (c : chcell) (x : nat -> R) (q : nat) : R := sumn (k_n c) (fun a => value con x (k_dof c a) * k_val c a q).
Definition point_grad (con : constraints) (c : chcell) (x : nat -> R) (q d : nat) : R := sumn (k_n c) (fun a => value con x (k_dof c a) * k_grad c a q d).
Definition bilinear (dim : nat) (coef : R) (con : constraints) (cells : list chcell) (y x : nat -> R) : R :=
  suml cells (fun c => sumn (k_nq c) (fun q =>
    (point_value con c y q * point_value con c x q + coef * sumn dim (fun d => point_grad con c y q d * point_grad con c x q d)) * k_JxW c q)).
Definition mesh_ok (m : chmesh) : Prop :=
  closed (me_con m) /\ (forall h l mw, me_con m h = Some l -> In mw l -> (fst mw < me_n m)%nat) /\
  (forall c a, In c (me_cells m) -> (a < k_n c)%nat -> (k_dof c a < me_n m)%nat).

Lemma cell_form dim coef c (y x : nat -> R) :
  sumn (k_n c) (fun a => y a * sumn (k_n c) (fun b => ch_cell_matrix dim coef c a b * x b)) =
  sumn (k_nq c) (fun q => (sumn (k_n c) (fun a => y a * k_val c a q) * sumn (k_n c) (fun b => x b * k_val c b q) +
     coef * sumn dim (fun d => sumn (k_n c) (fun a => y a * k_grad c a q d) * sumn (k_n c) (fun b => x b * k_grad c b q d))) * k_JxW c q).
Proof.
  unfold ch_cell_matrix.
  transitivity (sumn (k_n c) (fun a => sumn (k_nq c) (fun q => y a * (k_val c a q * sumn (k_n c) (fun b => x b * k_val c b q) +
      coef * sumn dim (fun d => k_grad c a q d * sumn (k_n c) (fun b => x b * k_grad c b q d))) * k_JxW c q))).
  { apply sumn_ext. intros a _. 
    rewrite (sumn_ext (k_n c) _ (fun b => sumn (k_nq c) (fun q => (k_val c a q * k_val c b q + coef * sumn dim (fun d => k_grad c a q d * k_grad c b q d)) * k_JxW c q * x b))) by (intros; rewrite sumn_scal_r; reflexivity).
    rewrite sumn_swap, <- sumn_scal. apply sumn_ext. intros q _.
    rewrite (sumn_ext (k_n c) _ (fun b => (k_val c a q * (x b * k_val c b q) + coef * sumn dim (fun d => k_grad c a q d * (x b * k_grad c b q d))) * k_JxW c q)).
    2:{ intros b _. rewrite (sumn_ext dim (fun d => k_grad c a q d * (x b * k_grad c b q d)) (fun d => x b * (k_grad c a q d * k_grad c b q d))) by (intros; ring). rewrite sumn_scal. ring. }
    rewrite sumn_scal_r, sumn_plus, !sumn_scal.
    replace (sumn (k_n c) (fun i => sumn dim (fun d => k_grad c a q d * (x i * k_grad c i q d)))) with (sumn dim (fun d => k_grad c a q d * sumn (k_n c) (fun b => x b * k_grad c b q d))).
    2:{ rewrite sumn_swap. apply sumn_ext. intros d _. rewrite <- sumn_scal. reflexivity. }
    ring. }
  rewrite sumn_swap. apply sumn_ext. intros q _.
  rewrite sumn_scal_r. f_equal.
  rewrite (sumn_ext (k_n c) _ (fun a => y a * k_val c a q * sumn (k_n c) (fun b => x b * k_val c b q) + coef * sumn dim (fun d => (y a * k_grad c a q d) * sumn (k_n c) (fun b => x b * k_grad c b q d)))).
  2:{ intros a _. rewrite (sumn_ext dim (fun d => y a * k_grad c a q d * _) (fun d => y a * (k_grad c a q d * sumn (k_n c) (fun b => x b * k_grad c b q d)))) by (intros; ring). rewrite sumn_scal. ring. }
  rewrite sumn_plus, sumn_scal_r, sumn_scal. f_equal. f_equal. rewrite sumn_swap. apply sumn_ext. intros d _. rewrite sumn_scal_r. reflexivity.
Qed.
(** the matrix is the weak form of mass plus coefficient times Laplacian: with every function that vanishes at constrained unknowns *)
Theorem C105_weak_form : forall p m w M x y, mesh_ok m -> from_scratch p m w = Some M -> (forall g, me_con m g <> None -> y g = 0) ->
  let coef := sqrt (3/4 * cm_sigma p * me_eps m * (cm_length p * cm_length p) / w) in
  sumn (me_n m) (fun g => y g * sumn (me_n m) (fun h => M g h * x h)) = bilinear (cm_dim p) coef (me_con m) (me_cells m) y x /\
  bilinear (cm_dim p) coef (me_con m) (me_cells m) y x = bilinear (cm_dim p) coef (me_con m) (me_cells m) x y /\
  ((forall c q, In c (me_cells m) -> (q < k_nq c)%nat -> 0 <= k_JxW c q) ->
     suml (me_cells m) (fun c => sumn (k_nq c) (fun q => point_value (me_con m) c y q * point_value (me_con m) c y q * k_JxW c q)) <= bilinear (cm_dim p) coef (me_con m) (me_cells m) y y).
Proof.
  intros p m w M x y (HC & HM & HB) HA HY coef. unfold from_scratch in HA. fold coef in HA.
  assert (Hcoef : 0 <= coef) by apply sqrt_pos. clearbody coef.
  set (con := me_con m) in *. set (N := me_n m) in *.
  assert (HT : forall t, In t (map (ch_term (cm_dim p) coef) (me_cells m)) -> term_below N con t).
  { intros t It. apply in_map_iff in It as (c & <- & Ic). split; cbn; intros a Ha; apply HB; assumption. }
  change (fold_left (set_one (ch_pattern m)) [] (add_terms (ch_pattern m) con (map (ch_term (cm_dim p) coef) (me_cells m)) (fun _ _ => 0)) = Some M) in HA.
  assert (HO : forall i : nat, In i [] -> con i <> None) by (intros i []).
  assert (EB : forall h k v, (h < N)%nat -> In (k, v) (expand con h) -> (k < N)%nat).
  { intros h k v Hh. unfold expand. destruct (con h) eqn:E; intros Y; [exact (HM _ _ _ E Y)|]. destruct Y as [Y|[]]. injection Y as <- _. exact Hh. }
  split; [|split].
  - transitivity (sumn N (fun g => y g * suml (me_cells m) (fun c => term_action con (ch_term (cm_dim p) coef c) x g))).
    { apply sumn_ext. intros g Hg. destruct (con g) eqn:EG.
      - rewrite HY by congruence. ring.
      - rewrite (assembled_free _ _ _ _ _ _ _ HM HT HO HA x g EG), suml_map. reflexivity. }
    rewrite (sumn_ext N _ (fun g => suml (me_cells m) (fun c => y g * term_action con (ch_term (cm_dim p) coef c) x g))) by (intros; rewrite suml_scal; reflexivity).
    rewrite <- suml_sumn. unfold bilinear. apply suml_ext. intros c Ic. unfold term_action, point_value, point_grad. cbn [t_n t_m t_row t_col t_val ch_term].
    rewrite <- (cell_form (cm_dim p) coef c (fun a => value con y (k_dof c a)) (fun b => value con x (k_dof c b))).
    rewrite (sumn_ext N _ (fun g => sumn (k_n c) (fun a => y g * share con (k_dof c a) g * sumn (k_n c) (fun b => ch_cell_matrix (cm_dim p) coef c a b * value con x (k_dof c b))))).
    2:{ intros g _. rewrite <- sumn_scal. apply sumn_ext. intros; ring. }
    rewrite sumn_swap. apply sumn_ext. intros a Ha. rewrite sumn_scal_r. f_equal. apply value_share. intros k v. apply EB. apply HB; assumption.
  - unfold bilinear. apply suml_ext. intros c _. apply sumn_ext. intros q _. f_equal. f_equal; [ring|]. f_equal. apply sumn_ext. intros; ring.
  - intros HJ. unfold bilinear.
    assert (LE : forall (A : Type) (l : list A) u v, (forall c, In c l -> u c <= v c) -> suml l u <= suml l v).
    { clear. induction l as [|c l IH]; intros u v H; cbn [suml]; [lra|]. apply Rplus_le_compat; [apply H; left; reflexivity|apply IH; intros; apply H; right; assumption]. }
    apply LE. intros c Ic. apply sumn_le. intros q Hq.
    apply Rmult_le_compat_r; [apply HJ; assumption|]. assert (0 <= coef * sumn (cm_dim p) (fun d => point_grad con c y q d * point_grad con c y q d)); [|lra].
    apply Rmult_le_pos; [exact Hcoef|]. apply sumn_nonneg. intros; apply Rle_0_sqr.
Qed.
Print Assumptions C105_weak_form.

(** ** Is there room for all entries? *)
(** on meshes where the masters of the unknowns of a cell belong to that cell, in particular without hanging nodes, there is *)
Theorem C105_complete : forall p m w,
  (forall c a k v, In c (me_cells m) -> (a < k_n c)%nat -> In (k, v) (expand (me_con m) (k_dof c a)) -> exists b, (b < k_n c)%nat /\ k_dof c b = k) ->
  exists M, from_scratch p m w = Some M.
Proof.
  intros p m w H. unfold from_scratch. apply add_terms_defined. intros t e It Ie. apply in_map_iff in It as (c & <- & Ic). destruct e as [[r k] v].
  right. cbn [fst]. unfold ch_pattern. apply in_flat_map. exists c. split; [exact Ic|].
  assert (G : forall a k v, (a < k_n c)%nat -> In (k, v) (expand (me_con m) (k_dof c a)) -> In k (map (k_dof c) (seq 0 (k_n c)))).
  { intros a k0 v0 Ha Ik. destruct (H c a k0 v0 Ic Ha Ik) as (b & Hb & <-). apply in_map, in_seq. lia. }
  apply in_prod_iff. apply term_entries_in in Ie as [(a & b & wr & wc & Ha & Hb & Ir & Ik & _)|(_ & <- & _ & a & Ha & <- & _)]; cbn [t_n t_m t_row t_col ch_term] in *.
  - split; [exact (G a _ _ Ha Ir)|exact (G b _ _ Hb Ik)].
  - split; apply in_map, in_seq; lia.
Qed.
Print Assumptions C105_complete.
(** the exact condition for one entry: a hanging node whose master does not share a cell with another unknown of its cell *)
Theorem C105_violation_hanging : forall p m w c a b l B v,
  In c (me_cells m) -> (a < k_n c)%nat -> (b < k_n c)%nat -> me_con m (k_dof c a) = None -> me_con m (k_dof c b) = Some l -> In (B, v) l -> v <> 0 ->
  ch_cell_matrix (cm_dim p) (sqrt (3/4 * cm_sigma p * me_eps m * (cm_length p * cm_length p) / w)) c a b <> 0 ->
  (forall c' i j, In c' (me_cells m) -> (i < k_n c')%nat -> (j < k_n c')%nat -> k_dof c' i = k_dof c a -> k_dof c' j = B -> False) ->
  from_scratch p m w = None.
Proof.
  intros p m w c a b l B v Ic Ha Hb Ea Eb IB Hv HA HN. unfold from_scratch. set (coef := sqrt _) in *. clearbody coef.
  destruct (add_terms _ _ _ _) as [M|] eqn:E; [exfalso|reflexivity]. apply add_terms_some in E as [_ E].
  set (t := ch_term (cm_dim p) coef c).
  assert (Ie : In (k_dof c a, B, 1 * ch_cell_matrix (cm_dim p) coef c a b * v) (term_entries (me_con m) t)).
  { unfold term_entries. apply in_or_app. left. apply in_flat_map. exists a. split; [apply in_seq; cbn; lia|]. apply in_flat_map. exists b. split; [apply in_seq; cbn; lia|].
    cbn [t t_row t_col t_val ch_term]. unfold expand. rewrite Ea, Eb. cbn [flat_map]. rewrite app_nil_r. apply in_map_iff. exists (B, v). auto. }
  destruct (E t _ (in_map _ _ _ Ic) Ie) as [Z|I]; cbn [fst snd] in *.
  - rewrite Rmult_1_l in Z. apply Rmult_integral in Z as [Z|Z]; contradiction.
  - unfold ch_pattern in I. apply in_flat_map in I as (c' & Ic' & I). apply in_prod_iff in I as [I1 I2].
    apply in_map_iff in I1 as (i & E1 & I1). apply in_map_iff in I2 as (j & E2 & I2). apply in_seq in I1, I2. apply (HN c' i j); auto; lia.
Qed.
Print Assumptions C105_violation_hanging.

(** ** Concrete cases *)
(** a square cut in four beside a square that is not: unknowns A=0, B=1 (end points of the common edge), h=2 (its middle), C=3 (center),
    m=4 (middle of the side at A), n=5 (middle of the side at B), E=6, F=7 on the coarse side; one quadrature point *)
Definition quad (d0 d1 d2 d3 : nat) : chcell := MkChcell 4 (fun i => nth i [d0; d1; d2; d3] 0%nat) 1 (fun _ _ => 1/4) (fun _ _ _ => 0) (fun _ => 1).
Definition hanging_mesh : chmesh := MkChmesh 8 [quad 0 2 4 3; quad 2 1 3 5; quad 6 7 0 1] (fun h => if Nat.eqb h 2 then Some [(0%nat, 1/2); (1%nat, 1/2)] else None) 1.
Definition plain_mesh : chmesh := MkChmesh 6 [quad 0 2 4 3; quad 2 1 3 5] (fun _ => None) 1.
Example C105_hanging_witness : forall p w, from_scratch p hanging_mesh w = None.
Proof.
  intros p w. apply (C105_violation_hanging p hanging_mesh w (quad 0 2 4 3) 2 1 [(0%nat, 1/2); (1%nat, 1/2)] 1 (1/2)); cbn; auto; try lia; try lra.
  - unfold ch_cell_matrix. cbn. assert (Z : sumn (cm_dim p) (fun _ => 0 * 0) = 0) by (apply sumn_zero; intros; ring). rewrite Z. lra.
  - intros c' i j I Hi Hj E1 E2. destruct I as [<-|[<-|[<-|[]]]]; cbn in *;
      destruct i as [|[|[|[|i]]]]; cbn in E1; try discriminate; try lia; destruct j as [|[|[|[|j]]]]; cbn in E2; try discriminate; lia.
Qed.
Example C105_plain_witness : forall p w, mesh_ok plain_mesh /\ exists M, from_scratch p plain_mesh w = Some M.
Proof.
  intros p w. split.
  - split; [intros ? ? ? ? H; discriminate H|]. split; [intros ? ? ? H; discriminate H|]. cbn [plain_mesh me_cells me_n In].
    intros c a [<-|[<-|[]]] Ha; cbn in *; destruct a as [|[|[|[|a]]]]; cbn; lia.
  - apply C105_complete. intros c a k v [<-|[<-|[]]] Ha I; cbn in I; destruct I as [I|[]]; injection I as <- _; exists a; auto.
Qed.
Example C105_history_witness : forall c, own_calls [Setup plain_mesh; Step; SetStep 2; Step; Refine None; Step; Refine (Some hanging_mesh)] /\
  f_mesh (reacts (MkChmat 1 1 2) (pf_init c plain_mesh) ([Setup plain_mesh; Step; SetStep 2; Step; Refine None; Step; Refine (Some hanging_mesh)] ++ [Step])) = hanging_mesh.
Proof.
  intros c. assert (O : own_calls [Setup plain_mesh; Step; SetStep 2; Step; Refine None; Step; Refine (Some hanging_mesh)]).
  { intros H. repeat (destruct H as [H|H]; [discriminate|]). destruct H. }
  split; [exact O|]. refine (eq_trans (proj1 (C105_current (MkChmat 1 1 2) c plain_mesh _ _ O _)) eq_refl); [cbn; lia|].
  cbn. intros m [<-|[<-|[]]]; cbn; lia.
Qed.
(** the hypotheses of C105_violation_foreign: an implicit Euler run with step 1, a new step size 2, init_time_advance by hand, a time step *)
Lemma euler_next (c : clock RNum) v : scheme_val c = implicit_euler -> current_step_val c = v -> v <= max_step_val c -> now_val c + v <= final_val c - 1/100 * v ->
  next_step c = v /\ now_val (next c) = now_val c + v /\ next_new_weight c = 1 / v.
Proof.
  intros HS HV HM HF.
  assert (S : next_s c = v). { unfold next_s, ngtb. rewrite HS, HV. cbn [scheme_eqb andb]. destruct (not_at_start c); [|reflexivity]. rnum. destruct (Rltb_spec (max_step_val c) v); [lra|reflexivity]. }
  assert (E : next_hits_end c = false).
  { unfold next_hits_end, ngtb. rewrite S. rnum. destruct (Rltb_spec (final_val c - Q2R (QArith_base.Qmake 1 100) * v) (now_val c + v)) as [L|L]; [|apply andb_false_r].
    exfalso. unfold Q2R in L. cbn in L. lra. }
  assert (N : next_step c = v) by (unfold next_step; rewrite E; exact S).
  split; [exact N|]. split.
  - cbn [next now_val]. unfold next_time. rewrite E, S. reflexivity.
  - unfold next_new_weight, next_uses_bdf. rewrite HS, N. cbn [scheme_eqb andb]. rnum. unfold Q2R. cbn. lra.
Qed.
(** an implicit Euler run: the step size is changed from 1 to 2 after a time step, init_time_advance is called, then a time step is done: the
    equation has weight 1/2, the preconditioner still that of the weight before *)
Example C105_foreign_witness : forall (c : clock RNum), scheme_val c = implicit_euler -> weight c = 1 -> now_val c = 1 -> max_step_val c = 10 -> final_val c = 100 ->
  let c1 := set_time_step c 2 in weight_has_changed (next (next c1)) = false /\ weight (next c1) = 1/2 /\ weight c1 = 1.
Proof.
  intros c HS HW HN HM HF c1.
  destruct (euler_next c1 2) as (A1 & A2 & A3); [exact HS|reflexivity|change (2 <= max_step_val c); rewrite HM; rnum; lra|change (now_val c + 2 <= final_val c - 1/100 * 2); rewrite HN, HF; rnum; lra|].
  assert (W : weight (next c1) = 1/2).
  { change ((if next_weight_changes c1 then next_new_weight c1 else weight_val c1) = 1/2).
    unfold next_weight_changes, ngtb. rewrite A3. change (weight_val c1) with (weight c). rewrite HW. rnum.
    destruct (Rltb_spec (Q2R (QArith_base.Qmake 1 1000000000000)) (Rabs (1/2 - 1) / (1/2))) as [L|L]; [reflexivity|]. exfalso. apply L. unfold Q2R. cbn.
    rewrite Rabs_left by lra. lra. }
  split; [|split; [exact W|exact HW]].
  destruct (euler_next (next c1) 2) as (B1 & B2 & B3);
    [exact HS|exact A1|change (2 <= max_step_val c); rewrite HM; rnum; lra|change (now_val (next c1) + 2 <= final_val c - 1/100 * 2); rewrite A2, HF; change (now_val c1) with (now_val c); rewrite HN; rnum; lra|].
  change (next_weight_changes (next c1) = false). unfold next_weight_changes, ngtb. rewrite B3. change (weight_val (next c1)) with (weight (next c1)). rewrite W. rnum.
  destruct (Rltb_spec (Q2R (QArith_base.Qmake 1 1000000000000)) (Rabs (1/2 - 1/2) / (1/2))) as [L|L]; [|reflexivity]. exfalso. unfold Q2R in L. cbn in L.
  replace (1/2 - 1/2) with 0 in L by ring. rewrite Rabs_R0 in L. lra.
Qed.
