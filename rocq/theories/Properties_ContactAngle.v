(** * C103: the contact angle condition of the phase field solver *)
From Coq Require Import Reals List Bool Arith Lra Lia Psatz Permutation.
From Coquelicot Require Import Coquelicot.
From Verif Require Import SumR Model_ProjectionMatrix Model_PhaseField Model_ContactAngle Properties_InteriorPenalty Properties_Curvature.
Import ListNotations.
From Verif Require Properties_GlobalMatrix Properties_ProjectionMatrix.
Open Scope R_scope.

(** ** Specification *)
(** the faces with the condition: those of owned cells at the boundary with a no-slip or Dirichlet id *)
Definition is_wall (b : walls) (f : wface) : bool := w_boundary f && (mem (w_id f) (dirichlet b) || mem (w_id f) (no_slip b)).
Definition wall_faces (b : walls) (cells : list wcell) : list wface :=
  flat_map (fun c => if w_owned c then filter (is_wall b) (w_faces c) else []) cells.
Definition shaped (dpf nq : nat) (l : list wface) : Prop := forall f, In f l -> length (w_dofs f) = dpf /\ length (w_JxW f) = nq.
(** the finite element function with coefficients [x], constraints resolved, at a quadrature point of a face *)
Definition field (con : constraints) (fm : nat -> nat -> R) (x : nat -> R) (f : wface) (q : nat) : R :=
  sumn (length (w_dofs f)) (fun i => suml (expand con (nth i (w_dofs f) 0%nat)) (fun mw => snd mw * x (fst mw)) * fm i q).
(** the share of the global test function [g] in the local one *)
Definition weight (con : constraints) (fm : nat -> nat -> R) (f : wface) (g q : nat) : R :=
  sumn (length (w_dofs f)) (fun i => suml (expand con (nth i (w_dofs f) 0%nat)) (fun mw => if Nat.eqb (fst mw) g then snd mw else 0) * fm i q).
Definition over_walls (faces : list wface) (h : wface -> nat -> R) : R :=
  suml faces (fun f => sumn (length (w_JxW f)) (fun q => h f q * nth q (w_JxW f) 0)).

(** ** The arrays *)
Lemma fold_push b l : forall d, fold_left (push_face b) l d = (fst d ++ flat_map w_dofs (filter (is_wall b) l), snd d ++ flat_map w_JxW (filter (is_wall b) l)).
Proof.
  induction l as [|f l IH]; intros [i j]; cbn [fold_left filter]; [cbn; rewrite !app_nil_r; reflexivity|].
  rewrite IH. unfold push_face. change (w_boundary f && _) with (is_wall b f). destruct (is_wall b f); cbn; rewrite <- ?app_assoc; reflexivity.
Qed.
Lemma fold_cells b l : forall d, fold_left (push_cell b) l d = (fst d ++ flat_map w_dofs (wall_faces b l), snd d ++ flat_map w_JxW (wall_faces b l)).
Proof.
  induction l as [|c l IH]; intros [i j]; cbn [fold_left wall_faces flat_map]; [cbn; rewrite !app_nil_r; reflexivity|].
  rewrite IH. unfold push_cell. destruct (w_owned c); [|reflexivity]. rewrite fold_push. cbn [fst snd]. fold (wall_faces b l). rewrite !flat_map_app, <- !app_assoc. reflexivity.
Qed.
Lemma flat_length {A B} (h : A -> list B) n l : (forall x, In x l -> length (h x) = n) -> length (flat_map h l) = (length l * n)%nat.
Proof. induction l as [|x l IH]; intros H; [reflexivity|]. cbn [flat_map length]. rewrite app_length, IH, H by (intros; apply H + left; auto using in_cons || reflexivity; right; auto). lia. Qed.
Lemma firstn_exact {A} (l m : list A) n : length l = n -> firstn n (l ++ m) = l.
Proof. intros <-. rewrite firstn_app, Nat.sub_diag, firstn_all, app_nil_r. reflexivity. Qed.
Lemma skipn_exact {A} (l m : list A) n : length l = n -> skipn n (l ++ m) = m.
Proof. intros <-. rewrite skipn_app, Nat.sub_diag, skipn_all. reflexivity. Qed.
Lemma suml_indexed {A} (d : A) (l : list A) (F : nat -> A -> R) :
  suml (combine (seq 0 (length l)) l) (fun ih => F (fst ih) (snd ih)) = sumn (length l) (fun i => F i (nth i l d)).
Proof.
  assert (G : forall (l : list A) k (F : nat -> A -> R), suml (combine (seq k (length l)) l) (fun ih => F (fst ih) (snd ih)) = sumn (length l) (fun i => F (k + i)%nat (nth i l d))).
  { clear. induction l as [|x l IH]; intros k F; [reflexivity|]. cbn [length seq combine suml fst snd]. rewrite IH.
    transitivity (F k x + sumn (length l) (fun i => F (k + S i)%nat (nth i l d))).
    - f_equal. apply sumn_ext. intros i _. f_equal. lia.
    - assert (H : forall n (f : nat -> R), f 0%nat + sumn n (fun i => f (S i)) = sumn (S n) f).
      { clear. intros n f. induction n as [|n IHn]; [cbn; ring|]. change (sumn (S n) (fun i => f (S i))) with (sumn n (fun i => f (S i)) + f (S n)). rewrite <- Rplus_assoc, IHn. reflexivity. }
      rewrite <- (H (length l) (fun i => F (k + i)%nat (nth i (x :: l) d))). cbn [nth]. rewrite Nat.add_0_r. reflexivity. }
  rewrite G. reflexivity.
Qed.
Section Faces.
Context (residual : bool) (p : chpar) (con con_w : constraints) (fm : nat -> nat -> R) (src : nat -> R).
Definition point_of (f : wface) (c : list R) (q : nat) : R * R := at_point residual p (field con fm src f q) (nth q c 0) (nth q (w_JxW f) 0).
Lemma contact_face_spec f c dst :
  (forall g, fst (contact_face residual p con con_w fm (w_dofs f) (w_JxW f) c src dst) g = dst g + sumn (length (w_JxW f)) (fun q => weight con_w fm f g q * snd (point_of f c q))) /\
  snd (contact_face residual p con con_w fm (w_dofs f) (w_JxW f) c src dst) = map (fun q => fst (point_of f c q)) (seq 0 (length (w_JxW f))).
Proof.
  unfold contact_face. cbn [fst snd]. split.
  - intros g. unfold distribute_local. f_equal.
    rewrite (suml_indexed 0%nat (w_dofs f) (fun i h => suml (expand con_w h) (fun mw => if Nat.eqb (fst mw) g then snd mw * sumn (length (w_JxW f)) (fun q => fm i q * snd (nth q _ (0, 0))) else 0))).
    transitivity (sumn (length (w_dofs f)) (fun i => sumn (length (w_JxW f)) (fun q =>
       suml (expand con_w (nth i (w_dofs f) 0%nat)) (fun mw => if Nat.eqb (fst mw) g then snd mw else 0) * fm i q * snd (point_of f c q)))).
    + apply sumn_ext. intros i Hi.
      transitivity (suml (expand con_w (nth i (w_dofs f) 0%nat)) (fun mw => if Nat.eqb (fst mw) g then snd mw else 0) * sumn (length (w_JxW f)) (fun q => fm i q * snd (point_of f c q))).
      * rewrite Rmult_comm, <- suml_scal. apply suml_ext. intros mw _. destruct (Nat.eqb (fst mw) g); [|ring]. rewrite Rmult_comm. f_equal.
        apply sumn_ext. intros q Hq. f_equal. f_equal.
        transitivity (nth q (map (point_of f c) (seq 0 (length (w_JxW f)))) (point_of f c 0)).
        { rewrite nth_indep with (d' := point_of f c 0) by (rewrite map_length, seq_length; exact Hq). reflexivity. }
        rewrite map_nth, seq_nth by exact Hq. reflexivity.
      * rewrite <- sumn_scal. apply sumn_ext. intros; ring.
    + rewrite sumn_swap. apply sumn_ext. intros q _. unfold weight. rewrite <- sumn_scal_r. apply sumn_ext. intros; ring.
  - rewrite map_map. reflexivity.
Qed.
Lemma contact_faces_spec dpf nq : forall faces chunks dst,
  shaped dpf nq faces -> length chunks = length faces -> (forall c, In c chunks -> length c = nq) ->
  let r := contact_faces (length faces) dpf nq residual p con con_w fm (flat_map w_dofs faces) (flat_map w_JxW faces) (concat chunks) src dst in
  (forall g, fst r g = dst g + suml (combine faces chunks) (fun fc => sumn nq (fun q => weight con_w fm (fst fc) g q * snd (point_of (fst fc) (snd fc) q)))) /\
  snd r = concat (map (fun fc => map (fun q => fst (point_of (fst fc) (snd fc) q)) (seq 0 nq)) (combine faces chunks)).
Proof.
  induction faces as [|f faces IH]; intros chunks dst HS HL HC r.
  - destruct chunks; [|discriminate]. cbn in r. unfold r. cbn. split; [intros; ring|reflexivity].
  - destruct chunks as [|c chunks]; [discriminate|]. destruct (HS f (or_introl eq_refl)) as [HD HJ]. pose proof (HC c (or_introl eq_refl)) as HCc.
    unfold r. cbn [length contact_faces flat_map concat]. rewrite !firstn_exact, !skipn_exact by assumption.
    destruct (contact_face_spec f c dst) as [F1 F2]. destruct (contact_face residual p con con_w fm (w_dofs f) (w_JxW f) c src dst) as [dst1 c1]. cbn [fst snd] in F1, F2.
    destruct (IH chunks dst1) as [I1 I2]; [intros x Hx; apply HS; right; exact Hx|injection HL; auto|intros x Hx; apply HC; right; exact Hx|].
    destruct (contact_faces (length faces) dpf nq residual p con con_w fm (flat_map w_dofs faces) (flat_map w_JxW faces) (concat chunks) src dst1) as [dst2 c2]. cbn [fst snd] in I1, I2 |- *.
    cbn [combine suml map concat fst snd]. split; [|rewrite F2, I2, HJ; reflexivity]. intros g. rewrite I1, F1, HJ. ring.
Qed.
End Faces.
Lemma combine_map {A B} (h : A -> B) l : combine l (map h l) = map (fun x => (x, h x)) l.
Proof. induction l; cbn; congruence. Qed.
Lemma zeros_concat {A} (l : list A) (h : A -> list R) nq : (forall x, In x l -> length (h x) = nq) ->
  map (fun _ : R => 0) (flat_map h l) = concat (map (fun _ => repeat 0 nq) l).
Proof.
  induction l as [|x l IH]; intros H; [reflexivity|]. cbn [flat_map map concat]. rewrite map_app, IH by (intros y Hy; apply H; right; exact Hy). f_equal.
  rewrite <- (H x (or_introl eq_refl)). generalize (h x). intros m. induction m; cbn; congruence.
Qed.
Lemma count_faces dpf nq faces : (0 < dpf)%nat -> shaped dpf nq faces -> (length (flat_map w_dofs faces) / dpf)%nat = length faces.
Proof. intros HP HS. rewrite (flat_length w_dofs dpf faces) by (intros f Hf; apply HS; exact Hf). apply Nat.div_mul. lia. Qed.
Lemma count_points dpf nq faces : shaped dpf nq faces -> faces <> [] -> (length (flat_map w_JxW faces) / length faces)%nat = nq.
Proof.
  intros HS HN. rewrite (flat_length w_JxW nq faces) by (intros f Hf; apply HS; exact Hf). rewrite Nat.mul_comm. apply Nat.div_mul. destruct faces; [congruence|discriminate].
Qed.
(** what the array of stored values holds after an evaluation of the residual at [U] *)
Definition stored_at (con : constraints) (fm : nat -> nat -> R) (nq : nat) (faces : list wface) (U : nat -> R) : list R :=
  concat (map (fun f => map (field con fm U f) (seq 0 nq)) faces).
Definition ready (dpf nq : nat) (p : chpar) (faces : list wface) (d : face_data) : Prop :=
  (ch_contact p = 0 /\ True) \/ (ch_contact p <> 0 /\ fd_indices d = flat_map w_dofs faces /\ fd_JxW d = flat_map w_JxW faces /\
   exists chunks, fd_c d = concat chunks /\ length chunks = length faces /\ forall c, In c chunks -> length c = nq).
Lemma setup_ready dpf nq p b cells : shaped dpf nq (wall_faces b cells) -> ready dpf nq p (wall_faces b cells) (setup_faces (ch_contact p) b cells).
Proof.
  intros HS. unfold ready, setup_faces. destruct (Req_EM_T (ch_contact p) 0) as [E|E]; [left; auto|]. right. rewrite fold_cells. cbn [fst snd app fd_indices fd_JxW fd_c].
  split; [exact E|]. split; [reflexivity|]. split; [reflexivity|]. exists (map (fun _ => repeat 0 nq) (wall_faces b cells)).
  split; [apply zeros_concat; intros f Hf; apply HS; exact Hf|]. split; [apply map_length|]. intros c Hc. apply in_map_iff in Hc as (f & <- & _). apply repeat_length.
Qed.
Lemma apply_ready dpf nq p con con_w fm faces d residual src dst : (0 < dpf)%nat -> shaped dpf nq faces -> ready dpf nq p faces d ->
  ready dpf nq p faces (snd (apply_contact_bc residual dpf p con con_w fm d src dst)).
Proof.
  intros HP HS [[E _]|(E & HI & HJ & chunks & HC & HL & HN)]; unfold apply_contact_bc; destruct (Req_EM_T (ch_contact p) 0); try contradiction; [left; auto|]. right.
  cbn [snd fd_indices fd_JxW fd_c]. rewrite HI, HJ, HC, (count_faces dpf nq) by assumption.
  split; [exact E|]. split; [reflexivity|]. split; [reflexivity|]. destruct faces as [|f0 faces0] eqn:EF.
  - exists []. cbn. destruct chunks; [|discriminate]. cbn. auto.
  - rewrite <- EF in *. rewrite (count_points dpf nq) by (assumption || congruence).
    destruct (contact_faces_spec residual p con con_w fm src dpf nq faces chunks dst HS HL HN) as [_ S]. cbv zeta in S. rewrite S.
    exists (map (fun fc => map (fun q => fst (point_of residual p con fm src (fst fc) (snd fc) q)) (seq 0 nq)) (combine faces chunks)). split; [reflexivity|].
    split; [rewrite map_length, combine_length; lia|]. intros c Ic. apply in_map_iff in Ic as (fc & <- & _). rewrite map_length, seq_length. reflexivity.
Qed.
Lemma residual_terms dpf nq p con con_w fm faces d U dst : (0 < dpf)%nat -> shaped dpf nq faces -> ready dpf nq p faces d ->
  (forall g, fst (apply_contact_bc true dpf p con con_w fm d U dst) g =
     dst g + over_walls faces (fun f q => weight con_w fm f g q * (ch_contact p * ch_sigma p * (3/4) * (field con fm U f q * field con fm U f q - 1)))) /\
  (ch_contact p <> 0 -> fd_c (snd (apply_contact_bc true dpf p con con_w fm d U dst)) = stored_at con fm nq faces U).
Proof.
  intros HP HS [[E _]|(E & HI & HJ & chunks & HC & HL & HN)]; unfold apply_contact_bc; destruct (Req_EM_T (ch_contact p) 0); try contradiction.
  - split; [|contradiction]. intros g. cbn [fst]. unfold over_walls. rewrite suml_zero; [ring|]. intros f _. apply sumn_zero. intros q _. rewrite E. ring.
  - cbn [fst snd fd_c]. rewrite HI, HJ, HC, (count_faces dpf nq) by assumption. destruct faces as [|f0 faces0] eqn:EF.
    + destruct chunks; [|discriminate]. cbn. split; [intros; unfold over_walls; cbn; ring|reflexivity].
    + rewrite <- EF in *. rewrite (count_points dpf nq) by (assumption || congruence).
      destruct (contact_faces_spec true p con con_w fm U dpf nq faces chunks dst HS HL HN) as [F S]. cbv zeta in F, S. split.
      * intros g. rewrite F. f_equal. unfold over_walls.
        assert (X : forall (h : wface -> R) l (m : list (list R)), length m = length l -> suml (combine l m) (fun fc => h (fst fc)) = suml l h).
        { clear. intros h l. induction l as [|x l IH]; intros [|y m] L; try discriminate; [reflexivity|]. cbn. rewrite IH by (injection L; auto). reflexivity. }
        transitivity (suml faces (fun f => sumn nq (fun q => weight con_w fm f g q * snd (point_of true p con fm U f [] q)))).
        { rewrite <- (X _ faces chunks HL). reflexivity. }
        apply suml_ext. intros f If. destruct (HS f If) as [_ HJf]. rewrite HJf. apply sumn_ext. intros q _. unfold point_of, at_point. cbn [snd]. field.
      * intros _. rewrite S. unfold stored_at. f_equal.
        assert (X : forall (h : wface -> list R) l (m : list (list R)), length m = length l -> map (fun fc => h (fst fc)) (combine l m) = map h l).
        { clear. intros h l. induction l as [|x l IH]; intros [|y m] L; try discriminate; [reflexivity|]. cbn. rewrite IH by (injection L; auto). reflexivity. }
        rewrite <- (X _ faces chunks HL). reflexivity.
Qed.
Lemma linear_terms dpf nq p con con_w fm faces d U D dst : (0 < dpf)%nat -> shaped dpf nq faces -> ready dpf nq p faces d -> (ch_contact p <> 0 -> fd_c d = stored_at con fm nq faces U) ->
  (forall g, fst (apply_contact_bc false dpf p con con_w fm d D dst) g =
     dst g + over_walls faces (fun f q => weight con_w fm f g q * (ch_contact p * ch_sigma p * (3/2) * field con fm U f q * field con fm D f q))) /\
  fd_c (snd (apply_contact_bc false dpf p con con_w fm d D dst)) = fd_c d.
Proof.
  intros HP HS [[E _]|(E & HI & HJ & _)] HC; unfold apply_contact_bc; destruct (Req_EM_T (ch_contact p) 0); try contradiction.
  - split; [|reflexivity]. intros g. cbn [fst]. unfold over_walls. rewrite suml_zero; [ring|]. intros f _. apply sumn_zero. intros q _. rewrite E. ring.
  - specialize (HC E). cbn [fst snd fd_c]. rewrite HI, HJ, HC, (count_faces dpf nq) by assumption. destruct faces as [|f0 faces0] eqn:EF.
    + cbn. split; [intros; unfold over_walls; cbn; ring|reflexivity].
    + rewrite <- EF in *. rewrite (count_points dpf nq) by (assumption || congruence). unfold stored_at.
      destruct (contact_faces_spec false p con con_w fm D dpf nq faces (map (fun f => map (field con fm U f) (seq 0 nq)) faces) dst HS) as [F S].
      { apply map_length. }
      { intros c Ic. apply in_map_iff in Ic as (f & <- & _). rewrite map_length, seq_length. reflexivity. }
      cbv zeta in F, S. rewrite combine_map in F, S.
      assert (N : forall f q, (q < nq)%nat -> nth q (map (field con fm U f) (seq 0 nq)) 0 = field con fm U f q).
      { intros f q Hq. rewrite nth_indep with (d' := field con fm U f 0) by (rewrite map_length, seq_length; exact Hq). rewrite map_nth, seq_nth by exact Hq. reflexivity. }
      split.
      * intros g. rewrite F, suml_map. f_equal. apply suml_ext. intros f If. destruct (HS f If) as [_ HJf]. rewrite HJf. cbn [fst snd]. apply sumn_ext. intros q Hq.
        unfold point_of, at_point. cbn [snd]. rewrite N by exact Hq. field.
      * rewrite S, map_map. f_equal. apply map_ext. intros f. cbn [fst snd]. apply map_ext_in. intros q Hq. apply in_seq in Hq. unfold point_of, at_point. cbn [fst]. apply N. lia.
Qed.

(** ** C103: the terms, for every history of evaluations *)
Section Terms.
Context (dpf nq : nat) (p : chpar) (con con_w : constraints) (fm : nat -> nat -> R) (b : walls) (cells : list wcell).
(** setup, then any sequence of evaluations of the residual and of the linear operator, at any vectors *)
Inductive history : face_data -> Prop :=
| just_set_up : history (setup_faces (ch_contact p) b cells)
| evaluated residual d src dst : history d -> history (snd (apply_contact_bc residual dpf p con con_w fm d src dst)).
Lemma history_ready d : (0 < dpf)%nat -> shaped dpf nq (wall_faces b cells) -> history d -> ready dpf nq p (wall_faces b cells) d.
Proof. intros HP HS H. induction H; [apply setup_ready; exact HS|]. apply apply_ready; assumption. Qed.
End Terms.
(** The evaluation of the residual adds, for every test function, the integral over the walls of contact angle * surface tension * 3/4 (c^2 - 1);
    without contact angle, nothing. *)
Theorem C103_residual : forall dpf nq p con con_w fm b cells d U dst g,
  (0 < dpf)%nat -> shaped dpf nq (wall_faces b cells) -> history dpf p con con_w fm b cells d ->
  fst (apply_contact_bc true dpf p con con_w fm d U dst) g =
  dst g + over_walls (wall_faces b cells) (fun f q => weight con_w fm f g q *
    (ch_contact p * ch_sigma p * (3/4) * (field con fm U f q * field con fm U f q - 1))).
Proof. intros dpf nq p con con_w fm b cells d U dst g HP HS H. eapply residual_terms; eauto. eapply history_ready; eauto. Qed.
Print Assumptions C103_residual.
Lemma field_line con fm U D t f q : field con fm (fun i => U i + t * D i) f q = field con fm U f q + t * field con fm D f q.
Proof.
  unfold field. rewrite <- sumn_scal, <- sumn_plus. apply sumn_ext. intros i _.
  transitivity ((suml (expand con (nth i (w_dofs f) 0%nat)) (fun mw => snd mw * U (fst mw)) + t * suml (expand con (nth i (w_dofs f) 0%nat)) (fun mw => snd mw * D (fst mw))) * fm i q); [|ring].
  f_equal. rewrite <- suml_scal, <- suml_plus. apply suml_ext. intros; ring.
Qed.
Lemma over_walls_ext faces h k : (forall f q, h f q = k f q) -> over_walls faces h = over_walls faces k.
Proof. intros H. unfold over_walls. apply suml_ext. intros f _. apply sumn_ext. intros q _. rewrite H. reflexivity. Qed.
Lemma over_walls_plus faces h k : over_walls faces (fun f q => h f q + k f q) = over_walls faces h + over_walls faces k.
Proof. unfold over_walls. rewrite <- suml_plus. apply suml_ext. intros f _. rewrite <- sumn_plus. apply sumn_ext. intros; ring. Qed.
Lemma over_walls_scal faces a h : over_walls faces (fun f q => a * h f q) = a * over_walls faces h.
Proof. unfold over_walls. rewrite <- suml_scal. apply suml_ext. intros f _. rewrite <- sumn_scal. apply sumn_ext. intros; ring. Qed.
(** After the residual at [U], the linear operator in direction [D] is the derivative of that residual, also when it is applied many times. *)
Theorem C103_derivative : forall dpf nq p con con_w fm b cells d U D dst0 dst g Ds,
  (0 < dpf)%nat -> shaped dpf nq (wall_faces b cells) -> history dpf p con con_w fm b cells d ->
  let after := fold_left (fun d E => snd (apply_contact_bc false dpf p con con_w fm d E dst)) Ds (snd (apply_contact_bc true dpf p con con_w fm d U dst0)) in
  derivable_pt_lim (fun t => fst (apply_contact_bc true dpf p con con_w fm d (fun i => U i + t * D i) dst) g) 0
    (fst (apply_contact_bc false dpf p con con_w fm after D (fun _ => 0)) g).
Proof.
  intros dpf nq p con con_w fm b cells d U D dst0 dst g Ds HP HS H after.
  assert (HA : ready dpf nq p (wall_faces b cells) after /\ (ch_contact p <> 0 -> fd_c after = stored_at con fm nq (wall_faces b cells) U)).
  { unfold after.
    assert (B : forall d1, ready dpf nq p (wall_faces b cells) d1 /\ (ch_contact p <> 0 -> fd_c d1 = stored_at con fm nq (wall_faces b cells) U) ->
      let d2 := fold_left (fun d E => snd (apply_contact_bc false dpf p con con_w fm d E dst)) Ds d1 in
      ready dpf nq p (wall_faces b cells) d2 /\ (ch_contact p <> 0 -> fd_c d2 = stored_at con fm nq (wall_faces b cells) U)).
    { clear -HP HS. induction Ds as [|E Ds IH]; intros d1 [H1 H2]; [auto|]. cbn [fold_left]. apply IH. split; [apply apply_ready; assumption|].
      intros C. rewrite <- (H2 C). eapply linear_terms; eauto. }
    apply B. split; [apply apply_ready; [exact HP|exact HS|eapply history_ready; eauto]|]. eapply residual_terms; eauto. eapply history_ready; eauto. }
  destruct HA as [HR HC]. destruct (linear_terms dpf nq p con con_w fm (wall_faces b cells) after U D (fun _ => 0) HP HS HR HC) as [L _]. rewrite L, Rplus_0_l.
  set (F := wall_faces b cells) in *. set (A := over_walls F (fun f q => weight con_w fm f g q * (ch_contact p * ch_sigma p * (3/4) * (field con fm U f q * field con fm U f q - 1)))).
  set (B := over_walls F _). set (C := over_walls F (fun f q => weight con_w fm f g q * (ch_contact p * ch_sigma p * (3/4) * (field con fm D f q * field con fm D f q)))).
  assert (E : forall t, fst (apply_contact_bc true dpf p con con_w fm d (fun i => U i + t * D i) dst) g = dst g + A + t * B + t * t * C).
  { intros t. rewrite (C103_residual dpf nq p con con_w fm b cells) by assumption. fold F. unfold A, B, C. rewrite <- !over_walls_scal, !Rplus_assoc. f_equal. rewrite <- !over_walls_plus. apply over_walls_ext.
    intros f q. rewrite field_line. field. }
  intros e He. set (k := e / (Rabs C + 1)). assert (P : 0 < Rabs C + 1) by (pose proof (Rabs_pos C); lra).
  assert (Hk : 0 < k) by (apply Rdiv_lt_0_compat; lra). exists (mkposreal k Hk). intros h Hh Lh. cbn in Lh. rewrite !E.
  replace ((dst g + A + (0 + h) * B + (0 + h) * (0 + h) * C - (dst g + A + 0 * B + 0 * 0 * C)) / h - B) with (h * C) by (field; exact Hh).
  rewrite Rabs_mult. apply Rle_lt_trans with (Rabs h * (Rabs C + 1)); [apply Rmult_le_compat_l; [apply Rabs_pos|lra]|].
  apply Rlt_le_trans with (k * (Rabs C + 1)); [apply Rmult_lt_compat_r; assumption|]. unfold k. right. field. lra.
Qed.
Print Assumptions C103_derivative.

(** ** C103: the energy of the walls *)
(** per area: contact angle * surface tension * (c^3 - 3 c)/4 *)
Definition wall_energy (p : chpar) (c : R) : R := ch_contact p * ch_sigma p * (c * c * c - 3 * c) / 4.
Lemma cubic_derivative F A B C D : (forall t, F t = A + t * B + t * t * C + t * t * t * D) -> derivable_pt_lim F 0 B.
Proof.
  intros H. apply is_derive_Reals. apply (is_derive_ext (fun t => A + t * B + t * t * C + t * t * t * D)); [intros t; symmetry; apply H|].
  auto_derive; [exact I|]. ring.
Qed.
Lemma weight_field N con fm y f q : (forall i m w, (i < length (w_dofs f))%nat -> In (m, w) (expand con (nth i (w_dofs f) 0%nat)) -> (m < N)%nat) ->
  sumn N (fun g => y g * weight con fm f g q) = field con fm y f q.
Proof.
  intros H. unfold weight, field.
  rewrite (sumn_ext N _ (fun g => sumn (length (w_dofs f)) (fun i => y g * suml (expand con (nth i (w_dofs f) 0%nat)) (fun mw => if Nat.eqb (fst mw) g then snd mw else 0) * fm i q))).
  2:{ intros g _. rewrite <- sumn_scal. apply sumn_ext. intros; ring. }
  rewrite sumn_swap. apply sumn_ext. intros i Hi. rewrite sumn_scal_r. f_equal. apply (Properties_GlobalMatrix.value_share con N y). intros m w. apply H. exact Hi.
Qed.
(** With the same constraints for both unknowns, the wall terms tested with [y] are the derivative of the energy of the walls in direction [y]. *)
Theorem C103_energy : forall N dpf nq p con fm b cells d U y,
  (0 < dpf)%nat -> shaped dpf nq (wall_faces b cells) -> history dpf p con con fm b cells d ->
  (forall f i m w, In f (wall_faces b cells) -> (i < dpf)%nat -> In (m, w) (expand con (nth i (w_dofs f) 0%nat)) -> (m < N)%nat) ->
  derivable_pt_lim (fun t => over_walls (wall_faces b cells) (fun f q => wall_energy p (field con fm (fun i => U i + t * y i) f q))) 0
    (sumn N (fun g => y g * fst (apply_contact_bc true dpf p con con fm d U (fun _ => 0)) g)).
Proof.
  intros N dpf nq p con fm b cells d U y HP HS H HN. set (F := wall_faces b cells) in *.
  assert (E : sumn N (fun g => y g * fst (apply_contact_bc true dpf p con con fm d U (fun _ => 0)) g) =
    over_walls F (fun f q => ch_contact p * ch_sigma p * (3/4) * (field con fm U f q * field con fm U f q - 1) * field con fm y f q)).
  { rewrite (sumn_ext N _ (fun g => suml F (fun f => sumn (length (w_JxW f)) (fun q => y g * weight con fm f g q *
       (ch_contact p * ch_sigma p * (3/4) * (field con fm U f q * field con fm U f q - 1) * nth q (w_JxW f) 0))))).
    2:{ intros g _. rewrite (C103_residual dpf nq p con con fm b cells) by assumption. fold F. rewrite Rplus_0_l. unfold over_walls. rewrite <- suml_scal. apply suml_ext. intros f _. rewrite <- sumn_scal. apply sumn_ext. intros; ring. }
    rewrite <- suml_sumn. unfold over_walls. apply suml_ext. intros f If. rewrite sumn_swap. apply sumn_ext. intros q _. rewrite sumn_scal_r, weight_field; [ring|].
    intros i m w Hi. destruct (HS f If) as [HD _]. apply HN; [exact If|rewrite <- HD; exact Hi]. }
  rewrite E. set (k := ch_contact p * ch_sigma p).
  apply cubic_derivative with
    (A := over_walls F (fun f q => wall_energy p (field con fm U f q)))
    (C := over_walls F (fun f q => k * (3/4) * field con fm U f q * (field con fm y f q * field con fm y f q)))
    (D := over_walls F (fun f q => k / 4 * (field con fm y f q * field con fm y f q * field con fm y f q))).
  intros t. rewrite <- !over_walls_scal, <- !over_walls_plus. apply over_walls_ext. intros f q. rewrite field_line. unfold wall_energy, k. field.
Qed.
Print Assumptions C103_energy.

(** ** C103: processes *)
(** The sum over the processes is the integral over the walls of the whole mesh, however the cells are distributed. *)
Theorem C103_processes : forall dpf nq p con con_w fm b parts parts' U g,
  (0 < dpf)%nat -> (forall cells, In cells (parts ++ parts') -> shaped dpf nq (wall_faces b cells)) ->
  Permutation (flat_map (wall_faces b) parts) (flat_map (wall_faces b) parts') ->
  let total parts := over_processes (map (fun cells => fst (apply_contact_bc true dpf p con con_w fm (setup_faces (ch_contact p) b cells) U (fun _ => 0))) parts) g in
  total parts = over_walls (flat_map (wall_faces b) parts) (fun f q => weight con_w fm f g q *
    (ch_contact p * ch_sigma p * (3/4) * (field con fm U f q * field con fm U f q - 1))) /\ total parts = total parts'.
Proof.
  intros dpf nq p con con_w fm b parts parts' U g HP HS HPm total.
  assert (T : forall l, (forall cells, In cells l -> shaped dpf nq (wall_faces b cells)) -> total l = over_walls (flat_map (wall_faces b) l) (fun f q => weight con_w fm f g q *
    (ch_contact p * ch_sigma p * (3/4) * (field con fm U f q * field con fm U f q - 1)))).
  { intros l Hl. unfold total, over_processes, over_walls. rewrite suml_map, Properties_ProjectionMatrix.suml_flat_map. apply suml_ext. intros cells Hc.
    rewrite (C103_residual dpf nq p con con_w fm b cells); [|exact HP|apply Hl; exact Hc|constructor]. rewrite Rplus_0_l. reflexivity. }
  rewrite !T by (intros cells Hc; apply HS; apply in_or_app; auto). split; [reflexivity|]. unfold over_walls. apply suml_perm. exact HPm.
Qed.
Print Assumptions C103_processes.

(** ** C103: Young's law *)
(** the flux of the phase field equation at the wall, phase_field_local.cc:206-207: -factor_4 times the derivative in normal direction; at a resting
    interface with chemical potential zero it has to cancel the wall term at every point of the wall *)
Definition balanced (p : chpar) (c normal_derivative : R) : Prop := - factor_4 p * normal_derivative + snd (at_point true p c 0 1) = 0.
(** a plane interface with unit normal [m] through [x0], profile of the solver *)
Definition plane_profile (p : chpar) (dim : nat) (m x0 x : nat -> R) : R := tanh (sumn dim (fun d => m d * (x d - x0 d)) / ch_eps p).
Lemma plane_derivative p dim m x0 x n : 0 < ch_eps p ->
  derivable_pt_lim (fun t => plane_profile p dim m x0 (fun d => x d + t * n d)) 0
    ((1 - plane_profile p dim m x0 x * plane_profile p dim m x0 x) * (sumn dim (fun d => m d * n d) / ch_eps p)).
Proof.
  intros He. set (a := sumn dim (fun d => m d * (x d - x0 d)) / ch_eps p). set (s := sumn dim (fun d => m d * n d) / ch_eps p).
  assert (E : forall t, plane_profile p dim m x0 (fun d => x d + t * n d) = comp tanh (fun t => a + t * s) t).
  { intros t. unfold comp, plane_profile, a, s. f_equal. unfold Rdiv. rewrite <- Rmult_assoc, <- Rmult_plus_distr_r. f_equal. rewrite <- sumn_scal, <- sumn_plus. apply sumn_ext. intros; ring. }
  apply is_derive_Reals. apply (is_derive_ext (comp tanh (fun t => a + t * s))); [intros t; symmetry; apply E|]. apply is_derive_Reals.
  replace ((1 - plane_profile p dim m x0 x * plane_profile p dim m x0 x) * s) with ((1 - tanh (a + 0 * s) * tanh (a + 0 * s)) * s).
  2:{ rewrite Rmult_0_l, Rplus_0_r. reflexivity. }
  apply derivable_pt_lim_comp; [|apply derivable_tanh]. apply is_derive_Reals. auto_derive; [exact I|]. ring.
Qed.
Theorem C103_young : forall p dim m n x0 x dn, 0 < ch_eps p -> 0 < ch_sigma p ->
  derivable_pt_lim (fun t => plane_profile p dim m x0 (fun d => x d + t * n d)) 0 dn ->
  (balanced p (plane_profile p dim m x0 x) dn <-> sumn dim (fun d => m d * n d) = - ch_contact p).
Proof.
  intros p dim m n x0 x dn He Hs HD. pose proof (uniqueness_limite _ _ _ _ HD (plane_derivative p dim m x0 x n He)) as ->.
  set (c := plane_profile p dim m x0 x). set (s := sumn dim (fun d => m d * n d)).
  assert (Hc : 0 < 1 - c * c). { unfold c, plane_profile. pose proof (tanh_range (sumn dim (fun d => m d * (x d - x0 d)) / ch_eps p)). nra. }
  assert (X : - factor_4 p * ((1 - c * c) * (s / ch_eps p)) + snd (at_point true p c 0 1) = - (3/4) * ch_sigma p * (1 - c * c) * (s + ch_contact p)).
  { unfold factor_4, at_point. cbn [snd]. field. lra. }
  unfold balanced. rewrite X. split.
  - intros E. apply Rmult_integral in E as [E|E]; [|lra]. exfalso. assert (0 < 3/4 * ch_sigma p * (1 - c * c)) by (repeat apply Rmult_lt_0_compat; lra). lra.
  - intros ->. ring.
Qed.
Print Assumptions C103_young.
(** Surface energies: the two phases differ by contact angle * surface tension on the wall; the energy whose derivatives are the terms of the phase
    field equation (lines 204-207) is, across the profile of the solver, the surface tension. *)
Definition bulk_energy (p : chpar) (c : R) : R := factor_2 p / 4 * ((c * c - 1) * (c * c - 1)).
Lemma profile_derive p x : 0 < ch_eps p -> is_derive (fun x => tanh (x / ch_eps p)) x ((1 - tanh (x / ch_eps p) * tanh (x / ch_eps p)) / ch_eps p).
Proof.
  intros He. replace ((1 - tanh (x / ch_eps p) * tanh (x / ch_eps p)) / ch_eps p) with ((1 - tanh (x / ch_eps p) * tanh (x / ch_eps p)) * (1 / ch_eps p)) by (field; lra).
  apply is_derive_Reals. apply (derivable_pt_lim_comp (fun x => x / ch_eps p) tanh); [|apply derivable_tanh]. apply is_derive_Reals. auto_derive; [exact I|]. field. lra.
Qed.
Theorem C103_surface_energies : forall p, 0 < ch_eps p -> 0 < ch_sigma p ->
  wall_energy p (-1) - wall_energy p 1 = ch_contact p * ch_sigma p /\
  (forall c, derivable_pt_lim (bulk_energy p) c (factor_2 p * c * (c * c - 1))) /\
  (forall c, derivable_pt_lim (wall_energy p) c (snd (at_point true p c 0 1))) /\
  let density x := bulk_energy p (tanh (x / ch_eps p)) + factor_4 p / 2 * (Derive (fun x => tanh (x / ch_eps p)) x * Derive (fun x => tanh (x / ch_eps p)) x) in
  (forall l, ex_RInt density (- l) l) /\
  forall e, 0 < e -> exists L, forall l, L <= l -> Rabs (RInt density (- l) l - ch_sigma p) < e.
Proof.
  intros p He Hs. split; [unfold wall_energy; field|]. split.
  { intros c. apply is_derive_Reals. unfold bulk_energy. auto_derive; [exact I|]. field. } split.
  { intros c. apply is_derive_Reals. unfold wall_energy, at_point. cbn [snd]. auto_derive; [exact I|]. field. }
  intros density. set (T := fun x => tanh (x / ch_eps p)). set (G := fun x => 3/4 * ch_sigma p * (T x - T x * T x * T x / 3)).
  assert (DT : forall x, is_derive T x ((1 - T x * T x) / ch_eps p)) by (intros x; apply profile_derive; exact He).
  assert (ED : forall x, density x = 3/4 * ch_sigma p / ch_eps p * ((1 - T x * T x) * (1 - T x * T x))).
  { intros x. unfold density. fold T. rewrite (is_derive_unique _ _ _ (DT x)). unfold bulk_energy, factor_2, factor_4. fold T. change (tanh (x / ch_eps p)) with (T x). field. lra. }
  assert (DG : forall x, is_derive G x (density x)).
  { intros x. rewrite ED. unfold G.
    evar_last; [apply (is_derive_comp (fun t => 3/4 * ch_sigma p * (t - t * t * t / 3)) T x (3/4 * ch_sigma p * (1 - T x * T x))); [auto_derive; [exact I|field]|apply DT]|].
    unfold scal. cbn. unfold mult. cbn. field. lra. }
  assert (CT : forall x, continuous T x) by (intros x; apply (@ex_derive_continuous R_AbsRing R_NormedModule); eexists; apply DT).
  assert (CD : forall x, continuous density x).
  { intros x. apply (continuous_ext (fun x => 3/4 * ch_sigma p / ch_eps p * ((1 - T x * T x) * (1 - T x * T x)))); [intros y; symmetry; apply ED|].
    assert (CC : continuous (fun x => 1 - T x * T x) x).
    { apply (continuous_minus (fun _ => 1) (fun x => T x * T x)); [apply continuous_const|]. apply (continuous_mult T T); apply CT. }
    apply (continuous_mult (fun _ => 3/4 * ch_sigma p / ch_eps p)); [apply continuous_const|]. apply (continuous_mult (fun x => 1 - T x * T x) (fun x => 1 - T x * T x)); exact CC. }
  assert (RI : forall l, is_RInt density (- l) l (G l - G (- l))).
  { intros l. apply (is_RInt_derive G density); intros x _; [apply DG|apply CD]. }
  split; [intros l; eexists; apply RI|]. intros e He'.
  set (s := ch_sigma p) in *. set (ep := ch_eps p) in *. set (L := (4 * s / e + 1) * ep).
  assert (Hq : 0 < 4 * s / e) by (apply Rdiv_lt_0_compat; lra).
  exists L. intros l Hl. rewrite (is_RInt_unique _ _ _ _ (RI l)).
  assert (Hl0 : 0 < l / ep). { apply Rdiv_lt_0_compat; [|exact He]. apply Rlt_le_trans with L; [|exact Hl]. unfold L. apply Rmult_lt_0_compat; lra. }
  assert (TL : 1 - 1 / (l / ep) <= T l < 1). { split; [apply tanh_large; exact Hl0|apply tanh_range]. }
  assert (TO : T (- l) = - T l). { unfold T. replace (- l / ep) with (- (l / ep)) by (field; lra). apply tanh_odd. }
  assert (B : 1 / (l / ep) < e / (4 * s)).
  { assert (4 * s / e + 1 <= l / ep). { apply Rmult_le_reg_r with ep; [exact He|]. replace (l / ep * ep) with l by (field; lra). exact Hl. }
    replace (e / (4 * s)) with (/ (4 * s / e)) by (field; lra). unfold Rdiv at 1. rewrite Rmult_1_l. apply Rinv_lt_contravar; [apply Rmult_lt_0_compat; lra|lra]. }
  assert (P0 : -1 < T l) by apply tanh_range.
  unfold G. rewrite TO. fold s. set (t := T l) in *.
  assert (Bt : 1 - t < e / (4 * s)) by lra.
  replace (3/4 * s * (t - t * t * t / 3) - 3/4 * s * (- t - - t * - t * - t / 3) - s) with (- (s / 2 * ((1 - t) * (1 - t) * (2 + t)))) by field.
  rewrite Rabs_Ropp, Rabs_pos_eq; [|apply Rmult_le_pos; [lra|apply Rmult_le_pos; [nra|lra]]].
  assert (B2 : (1 - t) * (2 + t) <= 9/4) by (pose proof (Rle_0_sqr (t + 1/2)) as Z; unfold Rsqr in Z; lra).
  apply Rle_lt_trans with (s / 2 * ((1 - t) * (9/4))); [apply Rmult_le_compat_l; [lra|]; rewrite Rmult_assoc; apply Rmult_le_compat_l; lra|].
  apply Rle_lt_trans with (s * 4 * (1 - t)); [nra|]. apply Rlt_le_trans with (s * 4 * (e / (4 * s))); [apply Rmult_lt_compat_l; lra|]. right. field. lra.
Qed.
Print Assumptions C103_surface_energies.

(** ** C103: where it fails *)
(** The entry is used as a cosine: a plane interface that meets the wall at the angle [theta] is at rest with the entry [theta] only if
    theta = cos theta; with an entry beyond one no plane interface is, whatever its direction. *)
Theorem C103_violation_cosine : forall p dim m n x0 x dn, 0 < ch_eps p -> 0 < ch_sigma p ->
  derivable_pt_lim (fun t => plane_profile p dim m x0 (fun d => x d + t * n d)) 0 dn ->
  (forall theta, sumn dim (fun d => m d * n d) = - cos theta -> (balanced p (plane_profile p dim m x0 x) dn <-> ch_contact p = cos theta)) /\
  (sumn dim (fun d => m d * m d) = 1 -> sumn dim (fun d => n d * n d) = 1 -> 1 < Rabs (ch_contact p) -> ~ balanced p (plane_profile p dim m x0 x) dn).
Proof.
  intros p dim m n x0 x dn He Hs HD. split.
  - intros theta Ht. rewrite (C103_young p dim m n x0 x dn He Hs HD), Ht. split; lra.
  - intros Hm Hn HK HB. rewrite (C103_young p dim m n x0 x dn He Hs HD) in HB.
    assert (CS : forall t, 0 <= 1 + 2 * t * sumn dim (fun d => m d * n d) + t * t).
    { intros t. replace (1 + 2 * t * sumn dim (fun d => m d * n d) + t * t) with (sumn dim (fun d => (m d + t * n d) * (m d + t * n d))).
      - apply sumn_nonneg. intros d _. apply Rle_0_sqr.
      - rewrite (sumn_ext dim _ (fun d => (m d * m d + 2 * t * (m d * n d)) + t * t * (n d * n d))) by (intros; ring). rewrite !sumn_plus, !sumn_scal, Hm, Hn. ring. }
    rewrite HB in CS. pose proof (CS 1). pose proof (CS (-1)). unfold Rabs in HK. destruct (Rcase_abs (ch_contact p)); lra.
Qed.
Print Assumptions C103_violation_cosine.
(** The boundary indicator is not used: the condition holds on every wall, also on indicator one, and on no other boundary, also not on indicator zero. *)
Theorem C103_violation_indicator : forall contact id dofs JxW, contact <> 0 ->
  let cell := MkWcell true [MkWface true id JxW dofs] in
  fd_indices (setup_faces contact (MkWalls [id] []) [cell]) = dofs /\ fd_indices (setup_faces contact (MkWalls [] []) [cell]) = [].
Proof.
  intros contact id dofs JxW HK cell. unfold setup_faces. destruct (Req_EM_T contact 0); [contradiction|]. rewrite !fold_cells. cbn [fst fd_indices app]. unfold wall_faces. cbn [flat_map cell w_owned w_faces filter].
  unfold is_wall. cbn [w_boundary w_id mem existsb dirichlet no_slip andb orb]. rewrite Nat.eqb_refl. cbn. rewrite app_nil_r. auto.
Qed.
Print Assumptions C103_violation_indicator.

(** without contact angle nothing is collected and nothing is done *)
Theorem C103_no_contact : forall residual dpf p con con_w fm b cells d src dst, ch_contact p = 0 ->
  setup_faces (ch_contact p) b cells = MkFaceData [] [] [] /\ apply_contact_bc residual dpf p con con_w fm d src dst = (dst, d).
Proof. intros residual dpf p con con_w fm b cells d src dst E. unfold setup_faces, apply_contact_bc. rewrite E. destruct (Req_EM_T 0 0) as [_|N]; [auto|contradiction N; reflexivity]. Qed.
Print Assumptions C103_no_contact.

(** ** C103: the values on the faces *)
(** the phase field on a face with [n] subdivisions, and what the solver evaluates *)
Definition true_value (n : nat) (c : nat -> R) (x : R) : R := sumn (S n) (fun i => c i * hat n (lexicographic n i) x).
Definition used_value (n : nat) (c : nat -> R) (q : nat) : R := sumn (S n) (fun i => c i * face_matrix n i q).
Lemma sqrt3 : 17/10 < sqrt 3 < 18/10 /\ sqrt 3 * sqrt 3 = 3.
Proof.
  assert (E : sqrt 3 * sqrt 3 = 3) by (apply sqrt_sqrt; lra). split; [|exact E]. pose proof (sqrt_pos 3). split; nra.
Qed.
Lemma inv3 : 55/100 < 1 / sqrt 3 < 59/100.
Proof.
  destruct sqrt3 as [[A B] _]. split.
  - apply Rmult_lt_reg_r with (sqrt 3); [lra|]. replace (1 / sqrt 3 * sqrt 3) with 1 by (field; lra). lra.
  - apply Rmult_lt_reg_r with (sqrt 3); [lra|]. replace (1 / sqrt 3 * sqrt 3) with 1 by (field; lra). lra.
Qed.
(** one subdivision: the same *)
Theorem C103_face_value : forall c q, (q < 2)%nat -> used_value 1 c q = true_value 1 c (quad_point 1 q).
Proof.
  intros c q Hq. pose proof inv3 as [A B]. unfold used_value, true_value, face_matrix. set (x := quad_point 1 q).
  assert (Hx : 0 <= x <= 1). { unfold x, quad_point. destruct q as [|[|q]]; [| |lia]; cbn; lra. }
  cbn [sumn lexicographic]. unfold lagrange, hat, node. cbn [seq fold_right Nat.eqb INR].
  rewrite (Rmax_right 0 (1 - Rabs (1 * x - 0))), (Rmax_right 0 (1 - Rabs (1 * x - 1))) by (unfold Rabs; destruct (Rcase_abs _); lra).
  clearbody x. unfold Rabs. destruct (Rcase_abs (1 * x - 0)); [lra|]. destruct (Rcase_abs (1 * x - 1)); [field|]. assert (x = 1) by lra. subst x. field.
Qed.
Print Assumptions C103_face_value.
Lemma hat_between n j i x : INR j <= INR n * x <= INR (S j) ->
  hat n i x = if Nat.eqb i j then 1 - (INR n * x - INR j) else if Nat.eqb i (S j) then INR n * x - INR j else 0.
Proof.
  intros [A B]. unfold hat. rewrite S_INR in B. destruct (Nat.eqb_spec i j) as [->|N].
  - rewrite Rabs_pos_eq by lra. apply Rmax_right. lra.
  - destruct (Nat.eqb_spec i (S j)) as [->|N2].
    + rewrite S_INR, Rabs_left1 by lra. rewrite Rmax_right; lra.
    + apply Rmax_left. destruct (Nat.lt_ge_cases i j) as [L|L].
      * assert (INR i + 1 <= INR j) by (rewrite <- S_INR; apply le_INR; lia). rewrite Rabs_pos_eq by lra. lra.
      * assert (INR j + 2 <= INR i). { replace 2 with (INR 2) by reflexivity. rewrite <- plus_INR. apply le_INR. lia. } rewrite Rabs_left1 by lra. lra.
Qed.
Lemma quad_in n q : (0 < n)%nat -> (q < 2 * n)%nat -> INR (q / 2) < INR n * quad_point n q < INR (S (q / 2)) /\ INR n * quad_point n q <> INR (q / 2) + 1/2.
Proof.
  intros Hn Hq. pose proof inv3 as [A B]. assert (P : 0 < INR n) by (apply lt_0_INR; exact Hn). unfold quad_point. rewrite S_INR.
  set (k := INR (q / 2)). destruct (Nat.even q).
  - replace (INR n * ((k + (1 - 1 / sqrt 3) / 2) / INR n)) with (k + (1 - 1 / sqrt 3) / 2) by (field; split; [pose proof sqrt3; lra|lra]). lra.
  - replace (INR n * ((k + (1 + 1 / sqrt 3) / 2) / INR n)) with (k + (1 + 1 / sqrt 3) / 2) by (field; split; [pose proof sqrt3; lra|lra]). lra.
Qed.
(** two subdivisions: right only where the phase field has no kink in the middle of the face *)
Theorem C103_violation_face_value_2 : forall c q, (q < 4)%nat -> (used_value 2 c q = true_value 2 c (quad_point 2 q) <-> c 0%nat + c 1%nat = 2 * c 2%nat).
Proof.
  intros c q Hq. destruct (quad_in 2 q) as [[A B] M]; [lia|lia|]. unfold used_value, true_value, face_matrix. set (x := quad_point 2 q) in *. clearbody x.
  assert (E : sumn 3 (fun i => c i * lagrange 2 (node 2) (lexicographic 2 i) x) - sumn 3 (fun i => c i * hat 2 (lexicographic 2 i) x) =
    (c 0%nat + c 1%nat - 2 * c 2%nat) * (2 * ((x - 1/2) * (if Nat.eqb (q / 2) 0 then x else x - 1)))).
  { unfold sumn. cbn [lexicographic]. rewrite !(hat_between 2 (q / 2)) by lra. unfold lagrange, node. cbn [seq fold_right Nat.eqb].
    assert (Q : (q / 2 = 0 \/ q / 2 = 1)%nat). { assert (q / 2 < 2)%nat by (apply Nat.div_lt_upper_bound; lia). lia. }
    destruct Q as [Q|Q]; rewrite Q; cbn [Nat.eqb INR]; field. }
  assert (Q : (q / 2 = 0 \/ q / 2 = 1)%nat). { assert (q / 2 < 2)%nat by (apply Nat.div_lt_upper_bound; lia). lia. }
  assert (NZ : 2 * ((x - 1/2) * (if Nat.eqb (q / 2) 0 then x else x - 1)) <> 0).
  { destruct Q as [Q|Q]; rewrite Q in *; cbn [Nat.eqb INR] in *; nra. }
  split; intros H.
  - assert (Z : (c 0%nat + c 1%nat - 2 * c 2%nat) * (2 * ((x - 1/2) * (if Nat.eqb (q / 2) 0 then x else x - 1))) = 0) by lra. apply Rmult_integral in Z as [Z|Z]; [lra|contradiction].
  - replace (c 0%nat + c 1%nat - 2 * c 2%nat) with 0 in E by lra. lra.
Qed.
Print Assumptions C103_violation_face_value_2.
(** three or four subdivisions: wrong even if the phase field is linear along the face, at every point *)
Lemma linear_3 a b x : sumn 4 (fun i => (a + b * (INR (lexicographic 3 i) / INR 3)) * lagrange 3 (node 3) (lexicographic 3 i) x) =
  a + b * x + b * (5 - 25 / 3 * (1 / sqrt 5)) * (x * (x - 1/2) * (x - 1)).
Proof.
  assert (Hr : sqrt 5 * sqrt 5 = 5) by (apply sqrt_sqrt; lra).
  unfold sumn. cbn [lexicographic]. unfold lagrange, node. cbn [seq fold_right Nat.eqb]. set (r := sqrt 5) in *. clearbody r.
  assert (N0 : r <> 0) by (intros ->; lra). assert (N1 : r <> 1) by (intros ->; lra). assert (N2 : r <> -1) by (intros ->; lra). cbn [INR].
  field [Hr]. repeat split; try lra.
Qed.
Lemma linear_4 a b x : sumn 5 (fun i => (a + b * (INR (lexicographic 4 i) / INR 4)) * lagrange 4 (node 4) (lexicographic 4 i) x) =
  a + b * x + b * (7 - 49 / 6 * sqrt (3 / 7)) * (x * (x - 1/2) * (x - 1)).
Proof.
  assert (Hw : sqrt (3 / 7) * sqrt (3 / 7) = 3 / 7) by (apply sqrt_sqrt; lra).
  unfold sumn. cbn [lexicographic]. unfold lagrange, node. cbn [seq fold_right Nat.eqb].
  assert (E : exists v, sqrt (3 / 7) = v / 7 /\ v * v = 21). { exists (7 * sqrt (3/7)). split; [field|]. lra. }
  destruct E as (v & -> & Hv). assert (N0 : v <> 0) by (intros ->; lra). assert (N1 : v <> 7) by (intros ->; lra). assert (N2 : v <> -7) by (intros ->; lra). cbn [INR].
  field [Hv]. repeat split; lra.
Qed.
Theorem C103_violation_face_value_34 : forall n a b q, n = 3%nat \/ n = 4%nat -> b <> 0 -> (q < 2 * n)%nat ->
  let c := fun i => a + b * (INR (lexicographic n i) / INR n) in let x := quad_point n q in
  true_value n c x = a + b * x /\ used_value n c q <> true_value n c x.
Proof.
  intros n a b q Hn Hb Hq c x. assert (P : (0 < n)%nat) by lia. destruct (quad_in n q P Hq) as [[A B] M]. fold x in A, B, M.
  assert (PR : 0 < INR n) by (apply lt_0_INR; exact P).
  assert (T : true_value n c x = a + b * x).
  { unfold true_value, c. assert (Q : (q / 2 < n)%nat) by (apply Nat.div_lt_upper_bound; lia).
    rewrite (sumn_ext (S n) _ (fun i => (a + b * (INR (lexicographic n i) / INR n)) *
      (if Nat.eqb (lexicographic n i) (q / 2) then 1 - (INR n * x - INR (q / 2)) else if Nat.eqb (lexicographic n i) (S (q / 2)) then INR n * x - INR (q / 2) else 0))).
    2:{ intros i _. rewrite (hat_between n (q / 2)) by lra. reflexivity. }
    clearbody x. set (k := (q / 2)%nat) in *. clearbody k.
    destruct Hn as [-> | ->]; unfold sumn; cbn [lexicographic].
    - destruct k as [|[|[|k]]]; [| | |lia]; cbn [Nat.eqb INR]; field.
    - destruct k as [|[|[|[|k]]]]; [| | | |lia]; cbn [Nat.eqb INR]; field. }
  split; [exact T|]. rewrite T. unfold used_value, face_matrix. fold x.
  assert (Q : (q / 2 < n)%nat) by (apply Nat.div_lt_upper_bound; lia).
  assert (X : x * (x - 1/2) * (x - 1) <> 0).
  { clearbody x. rewrite S_INR in B. set (k := (q / 2)%nat) in *. clearbody k. repeat apply Rmult_integral_contrapositive_currified; destruct Hn as [-> | ->]; cbn [INR] in *.
    1,3,5: (destruct k as [|[|[|k]]]; [| | |lia]; cbn [INR] in *; lra).
    all: destruct k as [|[|[|[|k]]]]; [| | | |lia]; cbn [INR] in *; lra. }
  destruct Hn as [-> | ->]; unfold c.
  - rewrite linear_3. assert (K : 5 - 25 / 3 * (1 / sqrt 5) <> 0).
    { assert (Hr : sqrt 5 * sqrt 5 = 5) by (apply sqrt_sqrt; lra). pose proof (sqrt_pos 5). intros Z. assert (N : sqrt 5 <> 0) by (intros E; rewrite E in Hr; lra).
      assert (sqrt 5 * (5 - 25 / 3 * (1 / sqrt 5)) = 5 * sqrt 5 - 25/3) by (field; exact N). rewrite Z, Rmult_0_r in H0. assert (sqrt 5 = 5/3) by lra. rewrite H1 in Hr. lra. }
    intros Z. apply X. apply Rmult_eq_reg_l with (b * (5 - 25 / 3 * (1 / sqrt 5))); [lra|]. apply Rmult_integral_contrapositive_currified; assumption.
  - rewrite linear_4. assert (K : 7 - 49 / 6 * sqrt (3 / 7) <> 0).
    { assert (Hw : sqrt (3 / 7) * sqrt (3 / 7) = 3 / 7) by (apply sqrt_sqrt; lra). intros Z. assert (E : sqrt (3/7) = 6/7) by lra. rewrite E in Hw. lra. }
    intros Z. apply X. apply Rmult_eq_reg_l with (b * (7 - 49 / 6 * sqrt (3 / 7))); [lra|]. apply Rmult_integral_contrapositive_currified; assumption.
Qed.
Print Assumptions C103_violation_face_value_34.

(** ** The hypotheses can be met *)
Definition one_par := MkCH 1 2 (1/10) (4/5).
Definition one_wall := MkWcell true [MkWface false 3 [1/2; 1/2] [5; 6]%nat; MkWface true 3 [1/2; 1/2] [0; 1]%nat; MkWface true 0 [1/2; 1/2] [2; 3]%nat].
Definition no_constraints : constraints := fun _ => None.
Example C103_nonvacuous :
  shaped 2 2 (wall_faces (MkWalls [3%nat] []) [one_wall; MkWcell false (w_faces one_wall)]) /\
  history 2 one_par no_constraints no_constraints (fun _ _ => 1/2) (MkWalls [3%nat] []) [one_wall] (setup_faces (4/5) (MkWalls [3%nat] []) [one_wall]) /\
  fst (apply_contact_bc true 2 one_par no_constraints no_constraints (fun _ _ => 1/2) (setup_faces (4/5) (MkWalls [3%nat] []) [one_wall]) (fun _ => 1/2) (fun _ => 0)) 0%nat = - (9/20).
Proof.
  assert (HS : shaped 2 2 (wall_faces (MkWalls [3%nat] []) [one_wall; MkWcell false (w_faces one_wall)])).
  { intros f If. cbn in If. destruct If as [<-|[]]. cbn. auto. }
  split; [exact HS|]. split; [apply (just_set_up 2 one_par)|].
  rewrite (C103_residual 2 2 one_par no_constraints no_constraints (fun _ _ => 1/2) (MkWalls [3%nat] []) [one_wall]); [|lia|exact HS|apply (just_set_up 2 one_par)].
  unfold over_walls, weight, field. cbn. lra.
Qed.
Example C103_young_nonvacuous : forall x, exists m n dn : R, (* in the plane: interface normal (3/5, 4/5), wall normal (0, -1) *)
  let mv := fun d => match d with O => m | _ => 4/5 end in let nv := fun d : nat => match d with O => n | _ => -1 end in
  derivable_pt_lim (fun t => plane_profile one_par 2 mv (fun _ => 0) (fun d => x d + t * nv d)) 0 dn /\ balanced one_par (plane_profile one_par 2 mv (fun _ => 0) x) dn.
Proof.
  intros x. exists (3/5), 0. eexists. cbv zeta. split; [apply plane_derivative; cbn; lra|].
  refine (proj2 (C103_young one_par 2 (fun d => match d with O => 3/5 | _ => 4/5 end) (fun d => match d with O => 0 | _ => -1 end) (fun _ => 0) x _ _ _ _) _); [cbn; lra|cbn; lra|apply plane_derivative; cbn; lra|]. cbn. lra.
Qed.
