(** * Global reductions: C32 (cell diameters), C36 (concentration range), C59 (maximal velocity) *)
From Coq Require Import Reals List Bool Lra Lia Permutation.
From Verif Require Import Model_Reductions.
Import ListNotations.
Open Scope R_scope.

(** ** Specification *)
Definition is_min (x : R) (l : list R) : Prop := In x l /\ forall y, In y l -> x <= y.
Definition is_max (x : R) (l : list R) : Prop := In x l /\ forall y, In y l -> y <= x.
(** all cells of all ranks and what is seen on them *)
Definition all_cells (ranks : list (list (list dcell))) : list dcell := concat (concat ranks).
Definition all_eigenvalues (ranks : list (list (list dcell))) : list R := concat (concat (map dc_eigenvalues (all_cells ranks))).
Definition finest (n_levels : nat) (c : dcell) : Prop := (dc_level c + 1 = n_levels)%nat.
Definition all_samples (ranks : list (list (list R))) : list R := concat (concat ranks).

(** ** Lemmas: a fold that computes a minimum and a maximum *)
(** [low a l x]: x is the smaller of a and the elements of l *)
Definition low (a : R) (l : list R) (x : R) : Prop := is_min x (a :: l).
Definition high (a : R) (l : list R) (x : R) : Prop := is_max x (a :: l).
Lemma low_nil a : low a [] a. Proof. split; [left; reflexivity|]. intros y [<-|[]]. lra. Qed.
Lemma high_nil a : high a [] a. Proof. split; [left; reflexivity|]. intros y [<-|[]]. lra. Qed.
Lemma low_app a l m x y : low a l x -> low x m y -> low a (l ++ m) y.
Proof.
  intros [H1 H2] [H3 H4]. assert (y <= x) by (apply H4; left; reflexivity). split.
  - destruct H3 as [<-|H3]; [destruct H1 as [<-|H1]; [left; reflexivity|right; apply in_or_app; auto]|right; apply in_or_app; auto].
  - intros z [<-|Hz]; [assert (x <= a) by (apply H2; left; reflexivity); lra|]. apply in_app_or in Hz. destruct Hz as [Hz|Hz].
    + assert (x <= z) by (apply H2; right; exact Hz). lra.
    + apply H4. right; exact Hz.
Qed.
Lemma high_app a l m x y : high a l x -> high x m y -> high a (l ++ m) y.
Proof.
  intros [H1 H2] [H3 H4]. assert (x <= y) by (apply H4; left; reflexivity). split.
  - destruct H3 as [<-|H3]; [destruct H1 as [<-|H1]; [left; reflexivity|right; apply in_or_app; auto]|right; apply in_or_app; auto].
  - intros z [<-|Hz]; [assert (a <= x) by (apply H2; left; reflexivity); lra|]. apply in_app_or in Hz. destruct Hz as [Hz|Hz].
    + assert (z <= x) by (apply H2; right; exact Hz). lra.
    + apply H4. right; exact Hz.
Qed.
Lemma low_one a x : low a [x] (Rmin a x).
Proof.
  split; [unfold Rmin; destruct (Rle_dec a x); cbn; auto|]. intros y [<-|[<-|[]]]; [apply Rmin_l|apply Rmin_r].
Qed.
Lemma high_one a x : high a [x] (Rmax a x).
Proof.
  split; [unfold Rmax; destruct (Rle_dec a x); cbn; auto|]. intros y [<-|[<-|[]]]; [apply Rmax_l|apply Rmax_r].
Qed.
Lemma high_one' a x : high a [x] (Rmax x a).
Proof. rewrite Rmax_comm. apply high_one. Qed.

Lemma mpi_max_spec l : l <> [] -> is_max (mpi_max l) l.
Proof.
  induction l as [|x l IH]; [congruence|]. intros _. destruct l as [|y l].
  - split; [left; reflexivity|]. intros z [<-|[]]. cbn. lra.
  - assert (N : y :: l <> []) by congruence. destruct (IH N) as [H1 H2]. change (mpi_max (x :: y :: l)) with (Rmax x (mpi_max (y :: l))). split.
    + unfold Rmax. destruct (Rle_dec x (mpi_max (y :: l))); [right; exact H1|left; reflexivity].
    + intros z [<-|Hz]; [apply Rmax_l|]. eapply Rle_trans; [apply H2, Hz|apply Rmax_r].
Qed.
(** the reduction of local maxima (with the same start value) is the maximum of the union; minima through negation *)
Lemma mpi_max_union {A} (f : A -> R) (g : A -> list R) (a : R) (l : list A) :
  l <> [] -> (forall x, In x l -> high a (g x) (f x)) -> high a (concat (map g l)) (mpi_max (map f l)).
Proof.
  intros Hl H. assert (N : map f l <> []) by (destruct l; [congruence|discriminate]). destruct (mpi_max_spec _ N) as [H1 H2]. split.
  - apply in_map_iff in H1. destruct H1 as (x & <- & Hx). destruct (H x Hx) as [[E|Hin] _]; [left; exact E|]. right. apply in_concat. exists (g x). split; [apply in_map; exact Hx|exact Hin].
  - intros y [<-|Hy].
    + destruct l as [|x l]; [congruence|]. destruct (H x (or_introl eq_refl)) as [_ Hb]. eapply Rle_trans; [apply Hb; left; reflexivity|]. apply H2. left; reflexivity.
    + apply in_concat in Hy. destruct Hy as (m & Hm & Hy). apply in_map_iff in Hm. destruct Hm as (x & <- & Hx). destruct (H x Hx) as [_ Hb].
      eapply Rle_trans; [apply Hb; right; exact Hy|]. apply H2. apply in_map, Hx.
Qed.
Lemma mpi_min_union {A} (f : A -> R) (g : A -> list R) (a : R) (l : list A) :
  l <> [] -> (forall x, In x l -> low a (g x) (f x)) -> low a (concat (map g l)) (- mpi_max (map (fun x => - f x) l)).
Proof.
  intros Hl H.
  assert (Hh : high (- a) (concat (map (fun x => map Ropp (g x)) l)) (mpi_max (map (fun x => - f x) l))).
  { apply mpi_max_union; [exact Hl|]. intros x Hx. destruct (H x Hx) as [H1 H2]. split.
    - destruct H1 as [<-|H1]; [left; reflexivity|right; apply in_map; exact H1].
    - intros y [<-|Hy]; [apply Ropp_le_contravar, H2; left; reflexivity|]. apply in_map_iff in Hy. destruct Hy as (z & <- & Hz). apply Ropp_le_contravar, H2. right; exact Hz. }
  destruct Hh as [H1 H2]. split.
  - destruct H1 as [E|H1]; [left; rewrite <- E; ring|]. right. apply in_concat in H1. destruct H1 as (m & Hm & Hy). apply in_map_iff in Hm. destruct Hm as (x & <- & Hx).
    apply in_map_iff in Hy. destruct Hy as (z & Ez & Hz). rewrite <- Ez, Ropp_involutive. apply in_concat. exists (g x). split; [apply in_map; exact Hx|exact Hz].
  - intros y [<-|Hy].
    + assert (- a <= mpi_max (map (fun x => - f x) l)) by (apply H2; left; reflexivity). lra.
    + apply in_concat in Hy. destruct Hy as (m & Hm & Hy). apply in_map_iff in Hm. destruct Hm as (x & <- & Hx).
      assert (- y <= mpi_max (map (fun x => - f x) l)).
      { apply H2. right. apply in_concat. exists (map Ropp (g x)). split; [apply in_map_iff; exists x; auto|apply in_map; exact Hy]. }
      lra.
Qed.

(** ** C36 and C59 *)
Lemma scan_samples vals : forall s, low (fst s) vals (fst (fold_left (fun s c => (Rmin (fst s) c, Rmax (snd s) c)) vals s)) /\
                            high (snd s) vals (snd (fold_left (fun s c => (Rmin (fst s) c, Rmax (snd s) c)) vals s)).
Proof.
  induction vals as [|v vals IH]; intros s; cbn [fold_left].
  - split; [apply low_nil|apply high_nil].
  - destruct (IH (Rmin (fst s) v, Rmax (snd s) v)) as [H1 H2]. split.
    + exact (low_app _ [v] _ _ _ (low_one _ _) H1).
    + exact (high_app _ [v] _ _ _ (high_one _ _) H2).
Qed.
Lemma scan_cells cells : forall s, let r := fold_left (fun s vals => fold_left (fun s c => (Rmin (fst s) c, Rmax (snd s) c)) vals s) cells s in
  low (fst s) (concat cells) (fst r) /\ high (snd s) (concat cells) (snd r).
Proof.
  induction cells as [|v cells IH]; intros s; cbn [fold_left concat].
  - split; [apply low_nil|apply high_nil].
  - destruct (scan_samples v s) as [A1 A2]. destruct (IH (fold_left (fun s c => (Rmin (fst s) c, Rmax (snd s) c)) v s)) as [H1 H2]. split.
    + exact (low_app _ _ _ _ _ A1 H1).
    + exact (high_app _ _ _ _ _ A2 H2).
Qed.
(** the returned pair is the minimum and the maximum of the solution over the sample points of all locally owned cells of all ranks *)
Theorem C36_concentration_range :
  forall (dbl_max : R) (ranks : list (list (list R))),
    all_samples ranks <> [] -> (forall c, In c (all_samples ranks) -> - dbl_max <= c <= dbl_max) ->
    is_min (fst (get_concentration_range dbl_max ranks)) (all_samples ranks) /\
    is_max (snd (get_concentration_range dbl_max ranks)) (all_samples ranks).
Proof.
  intros M ranks Hne HM.
  assert (Hr : ranks <> []) by (intros ->; apply Hne; reflexivity).
  set (scan := fun cells => fold_left (fun s vals => fold_left (fun s c => (Rmin (fst s) c, Rmax (snd s) c)) vals s) cells (M, - M)).
  assert (E : all_samples ranks = concat (map (@concat R) ranks)).
  { unfold all_samples. clear. induction ranks as [|r rs IH]; [reflexivity|]. cbn. rewrite concat_app, IH. reflexivity. }
  unfold get_concentration_range. fold scan. cbn [fst snd]. rewrite !map_map. rewrite E in *.
  destruct (mpi_min_union (fun c => fst (scan c)) (@concat R) M ranks Hr) as [L1 L2]; [intros x _; apply (scan_cells x (M, - M))|].
  destruct (mpi_max_union (fun c => snd (scan c)) (@concat R) (- M) ranks Hr) as [U1 U2]; [intros x _; apply (scan_cells x (M, - M))|].
  assert (exists c0, In c0 (concat (map (@concat R) ranks))) as [c0 Hc0].
  { destruct (concat (map (@concat R) ranks)) as [|c0 l]; [congruence|]. exists c0. left. reflexivity. }
  split; split.
  - destruct L1 as [E1|L1]; [|exact L1]. assert (H1 := L2 c0 (or_intror Hc0)). rewrite <- E1 in H1. destruct (HM c0 Hc0). assert (c0 = M) by lra. subst c0. rewrite <- E1. exact Hc0.
  - intros y Hy. apply L2. right; exact Hy.
  - destruct U1 as [E1|U1]; [|exact U1]. assert (H1 := U2 c0 (or_intror Hc0)). rewrite <- E1 in H1. destruct (HM c0 Hc0). assert (c0 = - M) by lra. subst c0. rewrite <- E1. exact Hc0.
  - intros y Hy. apply U2. right; exact Hy.
Qed.
Print Assumptions C36_concentration_range.
Lemma is_min_perm x y l m : Permutation l m -> is_min x l -> is_min y m -> x = y.
Proof. intros P [H1 H2] [H3 H4]. apply Rle_antisym; [apply H2; eapply Permutation_in; [apply Permutation_sym; exact P|exact H3]|apply H4; eapply Permutation_in; [exact P|exact H1]]. Qed.
Lemma is_max_perm x y l m : Permutation l m -> is_max x l -> is_max y m -> x = y.
Proof. intros P [H1 H2] [H3 H4]. apply Rle_antisym; [apply H4; eapply Permutation_in; [exact P|exact H1]|apply H2; eapply Permutation_in; [apply Permutation_sym; exact P|exact H3]]. Qed.
(** the partition of the mesh over the ranks and the order of cells and points do not matter *)
Theorem C36_partition_independent :
  forall (dbl_max : R) (ranks ranks' : list (list (list R))),
    all_samples ranks <> [] -> (forall c, In c (all_samples ranks) -> - dbl_max <= c <= dbl_max) ->
    Permutation (all_samples ranks) (all_samples ranks') ->
    get_concentration_range dbl_max ranks = get_concentration_range dbl_max ranks'.
Proof.
  intros M r r' H1 H2 P. destruct (C36_concentration_range M r H1 H2) as [A1 A2].
  assert (N' : all_samples r' <> []) by (intros E; rewrite E in P; apply Permutation_sym, Permutation_nil in P; congruence).
  destruct (C36_concentration_range M r' N') as [B1 B2]; [intros c Hc; apply H2; eapply Permutation_in; [apply Permutation_sym; exact P|exact Hc]|].
  rewrite (surjective_pairing (get_concentration_range M r)), (surjective_pairing (get_concentration_range M r')). f_equal; [eapply is_min_perm|eapply is_max_perm]; eassumption.
Qed.
Print Assumptions C36_partition_independent.
(** In every direction the samples are the n+1 equidistant points including both ends of the cell: no point of the cell is farther than half
    a spacing from a sample.  (n = degree + 2.) *)
Theorem C36_samples : forall (n : nat), (1 <= n)%nat ->
  (forall p, In p (trapezoid_points n) <-> exists i, (i <= n)%nat /\ p * INR n = INR i) /\
  In 0 (trapezoid_points n) /\ In 1 (trapezoid_points n) /\
  (forall x, 0 <= x <= 1 -> exists p, In p (trapezoid_points n) /\ Rabs (x - p) <= 1 / (2 * INR n)).
Proof.
  intros n Hn. assert (P : 0 < INR n) by (apply lt_0_INR; lia).
  assert (A : forall p, In p (trapezoid_points n) <-> exists i, (i <= n)%nat /\ p * INR n = INR i).
  { intros p. unfold trapezoid_points. rewrite in_map_iff. split.
    - intros (i & <- & I). apply in_seq in I. exists i. split; [lia|]. field. lra.
    - intros (i & I & E). exists i. split; [|apply in_seq; lia]. rewrite <- E. field. lra. }
  split; [exact A|]. split; [apply A; exists 0%nat; split; [lia|cbn; ring]|]. split; [apply A; exists n; split; [lia|ring]|].
  intros x Hx.
  assert (F : forall m : nat, forall y, 0 <= y <= INR m -> exists i, (i <= m)%nat /\ Rabs (y - INR i) <= 1/2).
  { induction m as [|m IH]; intros y Hy.
    - exists 0%nat. split; [lia|]. cbn in *. rewrite Rabs_pos_eq; lra.
    - rewrite S_INR in Hy. destruct (Rle_dec y (INR m)) as [L|L]; [destruct (IH y) as (i & I & J); [lra|exists i; split; [lia|auto]]|].
      destruct (Rle_dec y (INR m + 1/2)) as [L2|L2].
      + exists m. split; [lia|]. rewrite Rabs_pos_eq; lra.
      + exists (S m). split; [lia|]. rewrite S_INR. apply Rabs_le. lra. }
  destruct (F n (x * INR n)) as (i & I & J); [split; nra|].
  exists (INR i / INR n). split; [apply A; exists i; split; [auto|field; lra]|].
  replace (x - INR i / INR n) with ((x * INR n - INR i) * / INR n) by (field; lra).
  assert (Q : 0 < / INR n) by (apply Rinv_0_lt_compat; auto).
  rewrite Rabs_mult, (Rabs_pos_eq (/ INR n)) by lra.
  replace (1 / (2 * INR n)) with (1/2 * / INR n) by (field; lra). apply Rmult_le_compat_r; lra.
Qed.
Print Assumptions C36_samples.
(** but the range is that of the sample points, not of the solution: with a quadratic element (degree 2, sampled at 0, 1/4, ..., 1)
    the solution -(x - 1/10)^2 exceeds the reported maximum *)
Theorem C36_refuted_between_samples :
  exists c : R -> R, (exists a0 a1 a2, forall x, c x = a0 + a1 * x + a2 * x * x) /\
    let range := get_concentration_range 1000 [[map c (trapezoid_points (2 + 2))]] in
    exists x, 0 <= x <= 1 /\ snd range < c x.
Proof.
  exists (fun x => - ((x - 1/10) * (x - 1/10))). split.
  { exists (-1/100), (2/10), (-1). intros x. field. }
  cbv zeta.
  destruct (C36_concentration_range 1000 [[map (fun x => - ((x - 1/10) * (x - 1/10))) (trapezoid_points (2 + 2))]]) as [_ [H _]].
  - cbn. discriminate.
  - intros c Hc. unfold all_samples, trapezoid_points in Hc. cbn -[INR] in Hc. cbn [INR] in Hc. repeat (destruct Hc as [<-|Hc]; [lra|]). destruct Hc.
  - exists (1/10). split; [lra|]. set (v := snd _) in *. clearbody v. unfold all_samples, trapezoid_points in H. cbn -[INR] in H. cbn [INR] in H.
    repeat (destruct H as [<-|H]; [lra|]). destruct H.
Qed.
Print Assumptions C36_refuted_between_samples.

Theorem C59_maximal_velocity :
  forall ranks : list (list (list R)),
    ranks <> [] -> (forall v, In v (all_samples ranks) -> 0 <= v) ->
    (forall v, In v (all_samples ranks) -> v <= get_maximal_velocity ranks) /\
    (all_samples ranks <> [] -> In (get_maximal_velocity ranks) (all_samples ranks)) /\
    (all_samples ranks = [] -> get_maximal_velocity ranks = 0).
Proof.
  intros ranks Hr Hpos.
  assert (E : all_samples ranks = concat (map (@concat R) ranks)).
  { unfold all_samples. clear. induction ranks as [|r rs IH]; [reflexivity|]. cbn. rewrite concat_app, IH. reflexivity. }
  assert (S1 : forall vals m, high m vals (fold_left Rmax vals m)).
  { induction vals as [|v vals IH]; intros m; cbn [fold_left]; [apply high_nil|]. exact (high_app _ [v] _ _ _ (high_one _ _) (IH _)). }
  assert (S2 : forall cells m, high m (concat cells) (fold_left (fun m vals => fold_left Rmax vals m) cells m)).
  { induction cells as [|v cells IH]; intros m; cbn [fold_left concat]; [apply high_nil|]. exact (high_app _ _ _ _ _ (S1 _ _) (IH _)). }
  destruct (mpi_max_union (fun cells => fold_left (fun m vals => fold_left Rmax vals m) cells 0) (@concat R) 0 ranks Hr) as [H1 H2]; [intros; apply S2|].
  fold (get_maximal_velocity ranks) in H1, H2. rewrite <- E in H1, H2. split; [|split].
  - intros v Hv. apply H2. right; exact Hv.
  - intros Hne. destruct H1 as [E0|H1]; [|exact H1]. destruct (all_samples ranks) as [|v l]; [congruence|].
    assert (v <= get_maximal_velocity ranks) by (apply H2; right; left; reflexivity). assert (0 <= v) by (apply Hpos; left; reflexivity). left. lra.
  - intros En. rewrite En in H1. destruct H1 as [<-|[]]. reflexivity.
Qed.
Print Assumptions C59_maximal_velocity.
Example C59_nonvacuous : all_samples [[[1;3]];[];[[2];[0;1]]] = [1;3;2;0;1] /\ get_maximal_velocity [[[1;3]];[];[[2];[0;1]]] = 3.
Proof. split; [reflexivity|]. unfold get_maximal_velocity. cbn. unfold Rmax. repeat destruct (Rle_dec _ _); lra. Qed.

(** ** C32 *)
Lemma scan_evs evs : forall s, let r := fold_left (fun s ev => (Rmax (fst s) ev, Rmin (snd s) ev)) evs s in high (fst s) evs (fst r) /\ low (snd s) evs (snd r).
Proof.
  induction evs as [|v evs IH]; intros s; cbn [fold_left].
  - split; [apply high_nil|apply low_nil].
  - destruct (IH (Rmax (fst s) v, Rmin (snd s) v)) as [H1 H2]. split; [exact (high_app _ [v] _ _ _ (high_one _ _) H1)|exact (low_app _ [v] _ _ _ (low_one _ _) H2)].
Qed.
Lemma scan_cell_spec c s : high (fst s) (concat (dc_eigenvalues c)) (fst (scan_cell c s)) /\ low (snd s) (concat (dc_eigenvalues c)) (snd (scan_cell c s)).
Proof.
  unfold scan_cell. revert s. induction (dc_eigenvalues c) as [|e es IH]; intros s; cbn [fold_left concat].
  - split; [apply high_nil|apply low_nil].
  - destruct (scan_evs e s) as [A1 A2]. destruct (IH (fold_left (fun s ev => (Rmax (fst s) ev, Rmin (snd s) ev)) e s)) as [H1 H2].
    split; [exact (high_app _ _ _ _ _ A1 H1)|exact (low_app _ _ _ _ _ A2 H2)].
Qed.
Definition cell_diameter (c : dcell) : R := fst (scan_cell c (0, 0)).
Lemma scan_cell_fst c m m' : fst (scan_cell c (0, m)) = fst (scan_cell c (0, m')).
Proof.
  unfold scan_cell. assert (H : forall l s s', fst s = fst s' -> fst (fold_left (fun s evs => fold_left (fun s ev => (Rmax (fst s) ev, Rmin (snd s) ev)) evs s) l s) =
     fst (fold_left (fun s evs => fold_left (fun s ev => (Rmax (fst s) ev, Rmin (snd s) ev)) evs s) l s')).
  { induction l as [|e es IH]; intros s s' Hs; cbn [fold_left]; [exact Hs|]. apply IH. clear IH.
    revert s s' Hs. induction e as [|v e IH]; intros s s' Hs; cbn [fold_left]; [exact Hs|]. apply IH. cbn. rewrite Hs. reflexivity. }
  apply H. reflexivity.
Qed.
Definition evs_of (cells : list dcell) : list R := concat (concat (map dc_eigenvalues cells)).
Lemma evs_of_app a b : evs_of (a ++ b) = evs_of a ++ evs_of b.
Proof. unfold evs_of. rewrite map_app, concat_app, concat_app. reflexivity. Qed.
Definition finest_diams (n : nat) (cells : list dcell) : list R := map cell_diameter (filter (fun c => Nat.eqb (1 + dc_level c) n) cells).
Lemma finest_diams_app n a b : finest_diams n (a ++ b) = finest_diams n a ++ finest_diams n b.
Proof. unfold finest_diams. rewrite filter_app, map_app. reflexivity. Qed.
Lemma scan_batch n b : forall s, let r := fold_left (scan_lane n) b s in
  fst (fst r) = fst (fst s) ++ map cell_diameter b /\ low (snd (fst s)) (evs_of b) (snd (fst r)) /\ high (snd s) (finest_diams n b) (snd r).
Proof.
  induction b as [|c b IH]; intros s; cbn [fold_left map].
  - cbv zeta. split; [rewrite app_nil_r; reflexivity|]. split; [apply low_nil|apply high_nil].
  - destruct s as [[ds mn] mx].
    destruct (scan_cell_spec c (0, mn)) as [_ B].
    set (s1 := scan_lane n (ds, mn, mx) c). specialize (IH s1). cbv zeta in *. cbn [fst snd].
    assert (E1 : fst (fst s1) = ds ++ [cell_diameter c]).
    { unfold s1, scan_lane. rewrite (surjective_pairing (scan_cell c (0, mn))). cbn. rewrite (scan_cell_fst c mn 0). reflexivity. }
    assert (E2 : snd (fst s1) = snd (scan_cell c (0, mn))).
    { unfold s1, scan_lane. rewrite (surjective_pairing (scan_cell c (0, mn))). reflexivity. }
    assert (E3 : high mx (finest_diams n [c]) (snd s1)).
    { unfold s1, scan_lane. rewrite (surjective_pairing (scan_cell c (0, mn))). cbn [snd]. unfold finest_diams. cbn [filter]. destruct (Nat.eqb (1 + dc_level c) n); cbn [map].
      - rewrite (scan_cell_fst c mn 0). apply high_one'.
      - apply high_nil. }
    destruct IH as (H1 & H2 & H3). split; [|split].
    + rewrite H1, E1, <- app_assoc. reflexivity.
    + change (c :: b) with ([c] ++ b). rewrite evs_of_app. refine (low_app _ _ _ _ _ _ H2). rewrite E2. unfold evs_of. cbn [map concat]. rewrite app_nil_r. exact B.
    + change (c :: b) with ([c] ++ b). rewrite finest_diams_app. exact (high_app _ _ _ _ _ E3 H3).
Qed.
Lemma scan_rank_spec M n batches : let r := scan_rank M n batches in
  fst (fst r) = map (map cell_diameter) batches /\ low M (evs_of (concat batches)) (snd (fst r)) /\ high 0 (finest_diams n (concat batches)) (snd r).
Proof.
  unfold scan_rank. set (step := fun s b => let '(ds, mn, mx) := s in let '(diam, mn', mx') := fold_left (scan_lane n) b ([], mn, mx) in (ds ++ [diam], mn', mx')).
  enough (H : forall s, let r := fold_left step batches s in
    fst (fst r) = fst (fst s) ++ map (map cell_diameter) batches /\ low (snd (fst s)) (evs_of (concat batches)) (snd (fst r)) /\ high (snd s) (finest_diams n (concat batches)) (snd r)).
  { exact (H ([], M, 0)). }
  induction batches as [|b bs IH]; intros s; cbn [fold_left map concat].
  - cbv zeta. split; [rewrite app_nil_r; reflexivity|]. split; [apply low_nil|apply high_nil].
  - specialize (IH (step s b)). cbv zeta in *. destruct s as [[ds mn] mx].
    pose proof (scan_batch n b ([], mn, mx)) as HB. cbv zeta in HB. cbn [fst snd app] in HB. destruct HB as (B1 & B2 & B3). destruct IH as (H1 & H2 & H3).
    assert (E : step (ds, mn, mx) b = (ds ++ [fst (fst (fold_left (scan_lane n) b ([], mn, mx)))], snd (fst (fold_left (scan_lane n) b ([], mn, mx))), snd (fold_left (scan_lane n) b ([], mn, mx)))).
    { unfold step. destruct (fold_left (scan_lane n) b ([], mn, mx)) as [[x y] z]. reflexivity. }
    cbn [fst snd]. rewrite E in *. cbn [fst snd] in *. split; [|split].
    + rewrite H1, B1, <- app_assoc. reflexivity.
    + rewrite evs_of_app. exact (low_app _ _ _ _ _ B2 H2).
    + rewrite finest_diams_app. exact (high_app _ _ _ _ _ B3 H3).
Qed.
Lemma concat_map_ranks {B} (g : list dcell -> list B) ranks : (forall a b, g (a ++ b) = g a ++ g b) -> g [] = [] ->
  concat (map (fun b => g (concat b)) ranks) = g (all_cells ranks).
Proof.
  intros Ha Hn. unfold all_cells. induction ranks as [|r rs IH]; cbn; [symmetry; exact Hn|]. rewrite concat_app, Ha, IH. reflexivity.
Qed.
(** the minimum over all ranks, cells, points and directions *)
Theorem C32_minimum :
  forall (dbl_max : R) (n_levels : nat) (ranks : list (list (list dcell))),
    all_eigenvalues ranks <> [] -> (forall e, In e (all_eigenvalues ranks) -> 0 <= e <= dbl_max) ->
    is_min (snd (fst (compute_cell_diameters dbl_max n_levels ranks))) (all_eigenvalues ranks).
Proof.
  intros M n ranks Hne HM. assert (Hr : ranks <> []) by (intros ->; apply Hne; reflexivity).
  unfold compute_cell_diameters. cbn [fst snd]. rewrite map_map.
  destruct (mpi_min_union (fun x => snd (fst (scan_rank M n x))) (fun b => evs_of (concat b)) M ranks Hr) as [L1 L2]; [intros x _; apply scan_rank_spec|].
  rewrite (concat_map_ranks evs_of ranks evs_of_app eq_refl) in L1, L2. fold (all_eigenvalues ranks) in L1, L2. change (evs_of (all_cells ranks)) with (all_eigenvalues ranks) in *.
  split; [|intros y Hy; apply L2; right; exact Hy].
  destruct L1 as [E1|L1]; [|exact L1]. destruct (all_eigenvalues ranks) as [|c0 l] eqn:Ea; [congruence|].
  assert (H1 := L2 c0 (or_intror (or_introl eq_refl))). destruct (HM c0 (or_introl eq_refl)). left. rewrite <- E1 in *. lra.
Qed.
Print Assumptions C32_minimum.
(** every entry of cell_diameters is the maximum over the points and directions of that cell, in the order of batches and lanes *)
Theorem C32_cell_diameters :
  forall (dbl_max : R) (n_levels : nat) (ranks : list (list (list dcell))),
    fst (fst (compute_cell_diameters dbl_max n_levels ranks)) = map (map (map cell_diameter)) ranks /\
    forall c, concat (dc_eigenvalues c) <> [] -> (forall e, In e (concat (dc_eigenvalues c)) -> 0 <= e) -> is_max (cell_diameter c) (concat (dc_eigenvalues c)).
Proof.
  intros M n ranks. split.
  - unfold compute_cell_diameters. cbn [fst]. rewrite map_map. apply map_ext. intros b. apply scan_rank_spec.
  - intros c Hne Hpos. destruct (scan_cell_spec c (0, 0)) as [[H1 H2] _]. cbn [fst] in *. fold (cell_diameter c) in H1, H2. split; [|intros y Hy; apply H2; right; exact Hy].
    destruct H1 as [E|H1]; [|exact H1]. destruct (concat (dc_eigenvalues c)) as [|v l]; [congruence|].
    assert (v <= cell_diameter c) by (apply H2; right; left; reflexivity). assert (0 <= v) by (apply Hpos; left; reflexivity). left. lra.
Qed.
Print Assumptions C32_cell_diameters.
(** the maximum is taken over the cells of the finest level of all ranks (and is 0 if there is none) *)
Theorem C32_maximum :
  forall (dbl_max : R) (n_levels : nat) (ranks : list (list (list dcell))),
    ranks <> [] ->
    let mx := snd (compute_cell_diameters dbl_max n_levels ranks) in
    (forall c, In c (all_cells ranks) -> finest n_levels c -> cell_diameter c <= mx) /\
    (mx = 0 \/ exists c, In c (all_cells ranks) /\ finest n_levels c /\ mx = cell_diameter c).
Proof.
  intros M n ranks Hr mx. unfold mx, compute_cell_diameters. cbn [snd]. rewrite map_map.
  destruct (mpi_max_union (fun x => snd (scan_rank M n x)) (fun b => finest_diams n (concat b)) 0 ranks Hr) as [U1 U2]; [intros x _; apply scan_rank_spec|].
  rewrite (concat_map_ranks (finest_diams n) ranks (finest_diams_app n) eq_refl) in U1, U2. split.
  - intros c Hc Hf. apply U2. right. unfold finest_diams. apply in_map. apply filter_In. split; [exact Hc|]. apply Nat.eqb_eq. unfold finest in Hf. lia.
  - destruct U1 as [E|U1]; [left; symmetry; exact E|right]. unfold finest_diams in U1. apply in_map_iff in U1. destruct U1 as (c & Ec & Hc). apply filter_In in Hc. destruct Hc as [Hc Hl].
    apply Nat.eqb_eq in Hl. exists c. split; [exact Hc|]. split; [unfold finest; lia|symmetry; exact Ec].
Qed.
Print Assumptions C32_maximum.
(** the interface thickness derived from it is positive and at least epsilon/subdivisions times the diameter of every finest cell *)
Theorem C32_epsilon_used :
  forall (dbl_max : R) (n_levels : nat) (ranks : list (list (list dcell))) (epsilon subdivisions : R) (c : dcell),
    ranks <> [] -> 0 < epsilon -> 0 < subdivisions -> In c (all_cells ranks) -> finest n_levels c -> 0 < cell_diameter c ->
    let e := epsilon_used epsilon subdivisions (snd (compute_cell_diameters dbl_max n_levels ranks)) in
    0 < e /\ epsilon / subdivisions * cell_diameter c <= e.
Proof.
  intros M n ranks eps s c Hr He Hs Hc Hf Hd. destruct (C32_maximum M n ranks Hr) as [H _]. specialize (H c Hc Hf). cbv zeta. unfold epsilon_used.
  assert (0 < eps / s) by (apply Rdiv_lt_0_compat; assumption). split; [apply Rmult_lt_0_compat; lra|]. apply Rmult_le_compat_l; lra.
Qed.
Print Assumptions C32_epsilon_used.
(** coarser cells are not bounded by the reported maximum *)
Theorem C32_refuted_coarse_cells :
  exists ranks c, In c (all_cells ranks) /\ snd (compute_cell_diameters 1000 2 ranks) < cell_diameter c.
Proof.
  exists [[[MkDCell 0 [[2;2]]; MkDCell 1 [[1;1]]]]], (MkDCell 0 [[2;2]]). split; [left; reflexivity|].
  unfold compute_cell_diameters, cell_diameter, scan_rank, scan_cell. cbn. unfold scan_cell. cbn. unfold Rmax, Rmin. repeat destruct (Rle_dec _ _); lra.
Qed.
Print Assumptions C32_refuted_coarse_cells.
(** sample points: 2 dim face centers and the center of the reference cell *)
Theorem C32_points :
  forall (dim : nat) (p : nat -> R), In p (face_centers dim) <->
    p = center \/ exists d s, (d < dim)%nat /\ (s = 0 \/ s = 1) /\ p = (fun e => if Nat.eqb e d then s else 1/2).
Proof.
  intros dim p. unfold face_centers. rewrite in_app_iff, in_flat_map. split.
  - intros [(d & Hd & [<-|[<-|[]]])|[<-|[]]]; [right|right|left; reflexivity]; apply in_seq in Hd; exists d; [exists 0|exists 1]; (split; [lia|]; split; [auto|reflexivity]).
  - intros [->|(d & s & Hd & Hs & ->)]; [right; left; reflexivity|left]. exists d. split; [apply in_seq; lia|]. destruct Hs as [-> | ->]; [left|right; left]; reflexivity.
Qed.
Print Assumptions C32_points.
Example C32_nonvacuous :
  let ranks := [[[MkDCell 1 [[1;2]]; MkDCell 0 [[4;4]]]; [MkDCell 1 [[3;1/2]]]]; []] in
  all_eigenvalues ranks = [1;2;4;4;3;1/2] /\ snd (fst (compute_cell_diameters 1000 2 ranks)) = 1/2 /\ snd (compute_cell_diameters 1000 2 ranks) = 3.
Proof.
  cbv zeta. split; [reflexivity|]. unfold compute_cell_diameters, scan_rank. cbn. unfold scan_cell. cbn. unfold Rmax, Rmin. split; repeat destruct (Rle_dec _ _); lra.
Qed.
