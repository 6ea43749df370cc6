(** * Property theorems C102: the global matrices of the preconditioner *)
From Coq Require Import Reals Lra Lia List Bool Arith Permutation.
From Verif Require Import SumR Model_MatrixState Properties_MatrixState Model_Parameters Model_ProjectionMatrix Properties_ProjectionMatrix Model_GlobalMatrix.
From Verif Require Properties_InteriorPenalty.
Import ListNotations.
Open Scope R_scope.

(** ** Specification *)
(** the numbering of the velocity unknowns of a cell: (component, shape function) <-> local number; the sub-elements cover the cell *)
Definition numbering (sp : space) : Prop :=
  (forall d i, (d < s_dim sp)%nat -> (i < s_dofs sp)%nat -> (s_lo sp d i < s_dim sp * s_dofs sp)%nat /\ s_comp sp (s_lo sp d i) = d) /\
  (forall d i d' i', (d < s_dim sp)%nat -> (i < s_dofs sp)%nat -> (d' < s_dim sp)%nat -> (i' < s_dofs sp)%nat ->
     s_lo sp d i = s_lo sp d' i' -> d = d' /\ i = i').
Definition sub_elements (n vertices : nat) (subs : list (nat -> nat)) : Prop :=
  (forall sub k, In sub subs -> (k < vertices)%nat -> (sub k < n)%nat) /\
  (forall i, (i < n)%nat -> exists sub k, In sub subs /\ (k < vertices)%nat /\ sub k = i).
(** the unknowns are numbered from 0 to n-1, all belong to a cell, and masters are unknowns *)
Definition unknowns (con : constraints) (n m : nat) (dof : gcell -> nat -> nat) (cells : list gcell) : Prop :=
  (forall c k, In c cells -> (k < m)%nat -> (dof c k < n)%nat) /\
  (forall g, (g < n)%nat -> exists c k, In c cells /\ (k < m)%nat /\ dof c k = g) /\
  (forall h l mw, con h = Some l -> In mw l -> (fst mw < n)%nat).
(** the value of an unknown of a cell, and what one local operator contributes to the global unknown [g] *)
Definition value (con : constraints) (x : nat -> R) (h : nat) : R := suml (expand con h) (fun mw => snd mw * x (fst mw)).
Definition share (con : constraints) (h g : nat) : R := suml (expand con h) (fun mw => if Nat.eqb (fst mw) g then snd mw else 0).
Definition action (con : constraints) (n : nat) (dof : nat -> nat) (A : nat -> nat -> R) (x : nat -> R) (g : nat) : R :=
  sumn n (fun a => share con (dof a) g * sumn n (fun b => A a b * value con x (dof b))).
(** the sum over all cells of the operators (same component only) of the velocity *)
Definition velocity_operator (p : precondition_velocity) (sp : space) (con : constraints) (cells : list gcell) (x : nat -> R) (g : nat) : R :=
  suml cells (fun c =>
    match p with
    | u_amg | u_ilu => sumn (s_dim sp) (fun d => action con (s_dofs sp) (fun i => g_u c (s_lo sp d i)) (g_V c d) x g)
    | u_ilu_scalar => action con (s_dofs sp) (g_scalar c) (g_S c) x g
    | u_amg_linear => sumn (length (s_sub_u sp)) (fun s => sumn (s_dim sp) (fun d =>
        action con (s_vertices sp) (fun k => g_u c (s_lo sp d (nth s (s_sub_u sp) (fun _ => 0%nat) k))) (g_L c s d) x g))
    end).

(** ** Auxiliary *)
Definition pick (r c : nat) (e : nat * nat * R) : R := if Nat.eqb (fst (fst e)) r && Nat.eqb (snd (fst e)) c then snd e else 0.
Definition allowed (pat : list (nat * nat)) (e : nat * nat * R) : Prop := snd e = 0 \/ In (fst e) pat.
Lemma in_pattern_spec pat r c : in_pattern pat r c = true <-> In (r, c) pat.
Proof.
  unfold in_pattern. rewrite existsb_exists. split.
  - intros ([a b] & I & E). apply andb_true_iff in E as [E1 E2]. apply Nat.eqb_eq in E1, E2. cbn in *. subst. exact I.
  - intros I. exists (r, c). split; [exact I|]. cbn. rewrite !Nat.eqb_refl. reflexivity.
Qed.
Lemma Rneqb_spec x y : Rneqb x y = true <-> x <> y.
Proof. unfold Rneqb. destruct (Req_EM_T x y); split; congruence. Qed.
Lemma add_none pat e : fold_left (add_entry pat) e None = None.
Proof. induction e; cbn; auto. Qed.
Lemma adds_some pat e : forall M0 M, fold_left (add_entry pat) e (Some M0) = Some M ->
  (forall r c, M r c = M0 r c + suml e (pick r c)) /\ (forall t, In t e -> allowed pat t).
Proof.
  induction e as [|[[r0 c0] v] e IH]; intros M0 M H.
  - cbn in H. injection H as <-. split; [intros; cbn; ring|intros t []].
  - cbn [fold_left] in H. cbn [add_entry fst snd] in H. destruct (Rneqb v 0) eqn:Ev.
    + destruct (in_pattern pat r0 c0) eqn:Ep; [|rewrite add_none in H; discriminate].
      apply IH in H as [H1 H2]. split.
      * intros r c. rewrite H1. cbn [suml]. unfold pick at 2. cbn [fst snd]. destruct (_ && _); ring.
      * intros t [<-|It]; [right; apply in_pattern_spec; exact Ep|auto].
    + apply IH in H as [H1 H2]. assert (v = 0) as -> by (unfold Rneqb in Ev; destruct (Req_EM_T v 0); [auto|discriminate]).
      split.
      * intros r c. rewrite H1. cbn [suml]. unfold pick at 2. cbn [fst snd]. destruct (_ && _); ring.
      * intros t [<-|It]; [left; reflexivity|auto].
Qed.
Lemma adds_defined pat e : forall M0, (forall t, In t e -> allowed pat t) -> exists M, fold_left (add_entry pat) e (Some M0) = Some M.
Proof.
  induction e as [|[[r0 c0] v] e IH]; intros M0 H; [eexists; reflexivity|]. cbn [fold_left]. cbn [add_entry fst snd].
  destruct (Rneqb v 0) eqn:Ev; [|apply IH; intros; apply H; right; auto].
  destruct (H (r0, c0, v) (or_introl eq_refl)) as [Z|I]; cbn in *.
  - apply Rneqb_spec in Ev. contradiction.
  - apply in_pattern_spec in I. rewrite I. apply IH. intros; apply H; right; auto.
Qed.
Lemma set_none pat l : fold_left (set_one pat) l None = None.
Proof. induction l; cbn; auto. Qed.
Lemma sets_some pat l : forall M0 M, fold_left (set_one pat) l (Some M0) = Some M ->
  (forall r c, M r c = if Nat.eqb r c && existsb (Nat.eqb r) l then 1 else M0 r c).
Proof.
  induction l as [|i l IH]; intros M0 M H r c.
  - cbn in H. injection H as <-. cbn. rewrite andb_false_r. reflexivity.
  - cbn [fold_left] in H. cbn [set_one] in H. destruct (in_pattern pat i i); [|rewrite set_none in H; discriminate].
    rewrite (IH _ _ H r c). cbn [existsb].
    destruct (Nat.eqb_spec r c) as [<-|N]; cbn [andb].
    + destruct (existsb (Nat.eqb r) l); [rewrite orb_true_r; reflexivity|]. rewrite orb_false_r. destruct (Nat.eqb r i); reflexivity.
    + destruct (Nat.eqb_spec r i) as [->|]; cbn; [|reflexivity]. destruct (Nat.eqb_spec c i); [congruence|reflexivity].
Qed.
Lemma sets_defined pat l : forall M0, (forall i, In i l -> In (i, i) pat) -> exists M, fold_left (set_one pat) l (Some M0) = Some M.
Proof.
  induction l as [|i l IH]; intros M0 H; [eexists; reflexivity|]. cbn [fold_left]. cbn [set_one].
  assert (in_pattern pat i i = true) as -> by (apply in_pattern_spec, H; left; auto). apply IH. intros; apply H; right; auto.
Qed.
Lemma term_entries_in con t r c v : In (r, c, v) (term_entries con t) ->
  (exists a b wr wc, (a < t_n t)%nat /\ (b < t_m t)%nat /\ In (r, wr) (expand con (t_row t a)) /\ In (c, wc) (expand con (t_col t b)) /\ v = wr * t_val t a b * wc) \/
  (t_diag t = true /\ r = c /\ con r <> None /\ exists a, (a < t_n t)%nat /\ t_row t a = r /\ v = new_diagonal t a).
Proof.
  unfold term_entries. intros H. apply in_app_or in H as [H|H].
  - left. apply in_flat_map in H as (a & Ia & H). apply in_flat_map in H as (b & Ib & H). apply in_flat_map in H as ([m wr] & Ir & H).
    apply in_map_iff in H as ([n wc] & E & Ic). cbn [fst snd] in E. injection E as <- <- <-. apply in_seq in Ia. apply in_seq in Ib.
    exists a, b, wr, wc. repeat split; auto; lia.
  - right. destruct (t_diag t); [|destruct H]. apply in_flat_map in H as (a & Ia & H). apply in_seq in Ia.
    destruct (con (t_row t a)) eqn:E; [|destruct H]. destruct H as [H|[]]. injection H as <- <- <-. split; [auto|]. split; [auto|]. split; [congruence|].
    exists a. repeat split; auto. lia.
Qed.
Lemma suml_app_ {A} (l m : list A) f : suml (l ++ m) f = suml l f + suml m f. Proof. apply suml_app. Qed.
(** the entries of one local matrix in the row of a free unknown *)
Definition term_action (con : constraints) (t : term) (x : nat -> R) (g : nat) : R :=
  sumn (t_n t) (fun a => share con (t_row t a) g * sumn (t_m t) (fun b => t_val t a b * value con x (t_col t b))).
Lemma row_action con t x g : con g = None ->
  suml (term_entries con t) (fun e => if Nat.eqb (fst (fst e)) g then snd e * x (snd (fst e)) else 0) = term_action con t x g.
Proof.
  intros Hg. unfold term_entries. rewrite suml_app_.
  assert (Z : suml (if t_diag t then flat_map (fun a => match con (t_row t a) with Some _ => [(t_row t a, t_row t a, new_diagonal t a)] | None => [] end)
      (seq 0 (t_n t)) else []) (fun e : nat * nat * R => if Nat.eqb (fst (fst e)) g then snd e * x (snd (fst e)) else 0) = 0).
  { apply suml_zero. intros [[r c] v] H. destruct (t_diag t); [|destruct H]. apply in_flat_map in H as (a & _ & H).
    destruct (con (t_row t a)) eqn:E; [|destruct H]. destruct H as [H|[]]. injection H as <- <- <-. cbn.
    destruct (Nat.eqb_spec (t_row t a) g); [congruence|reflexivity]. }
  rewrite Z, Rplus_0_r. rewrite suml_flat_map, suml_seq0. unfold term_action. apply sumn_ext. intros a _.
  rewrite suml_flat_map, suml_seq0. rewrite <- sumn_scal. apply sumn_ext. intros b _. rewrite suml_flat_map.
  unfold share. rewrite <- Properties_InteriorPenalty.suml_scal_r. apply suml_ext. intros [m wr] _. rewrite suml_map. cbn [fst snd].
  destruct (Nat.eqb m g); [|rewrite Rmult_0_l; apply suml_zero; auto].
  unfold value. rewrite <- Rmult_assoc, <- suml_scal. apply suml_ext. intros [n wc] _. cbn [fst snd]. ring.
Qed.
(** the entries in the row and column of a constrained unknown *)
Definition own_diagonal (con : constraints) (t : term) (g : nat) : R :=
  if t_diag t then sumn (t_n t) (fun a => if Nat.eqb (t_row t a) g then new_diagonal t a else 0) else 0.
Lemma row_constrained con t g h : closed con -> con g <> None ->
  suml (term_entries con t) (pick g h) = (if Nat.eqb g h then own_diagonal con t g else 0) /\
  suml (term_entries con t) (pick h g) = (if Nat.eqb g h then own_diagonal con t g else 0).
Proof.
  intros Hc Hg.
  assert (R : forall u v, u = g \/ v = g -> suml (flat_map (fun a => flat_map (fun b =>
      flat_map (fun rw => map (fun cw => (fst rw, fst cw, snd rw * t_val t a b * snd cw)) (expand con (t_col t b))) (expand con (t_row t a)))
    (seq 0 (t_m t))) (seq 0 (t_n t))) (pick u v) = 0).
  { intros u v Huv. apply suml_zero. intros [[r c] w] H. apply in_flat_map in H as (a & _ & H). apply in_flat_map in H as (b & _ & H).
    apply in_flat_map in H as ([m wr] & Ir & H). apply in_map_iff in H as ([n wc] & E & Ic). cbn [fst snd] in E. injection E as <- <- <-.
    apply (expand_free con _ _ _ Hc) in Ir. apply (expand_free con _ _ _ Hc) in Ic. unfold pick. cbn [fst snd].
    destruct (Nat.eqb_spec m u); [|reflexivity]. destruct (Nat.eqb_spec n v); [|reflexivity]. exfalso. destruct Huv; subst; contradiction. }
  assert (D : forall u v, suml (if t_diag t then flat_map (fun a => match con (t_row t a) with Some _ => [(t_row t a, t_row t a, new_diagonal t a)] | None => [] end)
      (seq 0 (t_n t)) else []) (pick u v) = if t_diag t then sumn (t_n t) (fun a => match con (t_row t a) with Some _ =>
        if Nat.eqb (t_row t a) u && Nat.eqb (t_row t a) v then new_diagonal t a else 0 | None => 0 end) else 0).
  { intros u v. destruct (t_diag t); [|reflexivity]. rewrite suml_flat_map, suml_seq0. apply sumn_ext. intros a _.
    destruct (con (t_row t a)); cbn; [unfold pick; cbn; ring|reflexivity]. }
  unfold term_entries. rewrite !suml_app_, !R by auto. rewrite !D, !Rplus_0_l. unfold own_diagonal.
  destruct (t_diag t); [|destruct (Nat.eqb g h); auto].
  destruct (Nat.eqb_spec g h) as [<-|N].
  - split; apply sumn_ext; intros a _; destruct (Nat.eqb_spec (t_row t a) g) as [->|]; cbn; destruct (con g) eqn:E; try congruence; destruct (con (t_row t a)); reflexivity.
  - split; apply sumn_zero; intros a _; destruct (con (t_row t a)); auto; destruct (Nat.eqb_spec (t_row t a) g), (Nat.eqb_spec (t_row t a) h); cbn; auto; congruence.
Qed.
Lemma row_dot N (e : list (nat * nat * R)) x g : (forall t, In t e -> (snd (fst t) < N)%nat) ->
  sumn N (fun h => suml e (pick g h) * x h) = suml e (fun t => if Nat.eqb (fst (fst t)) g then snd t * x (snd (fst t)) else 0).
Proof.
  induction e as [|[[r c] v] e IH]; intros B; cbn [suml].
  - apply sumn_zero. intros; ring.
  - rewrite <- IH by (intros; apply B; right; auto). rewrite (sumn_ext _ _ (fun h => pick g h (r, c, v) * x h + suml e (pick g h) * x h)) by (intros; ring).
    rewrite sumn_plus. f_equal. unfold pick. cbn [fst snd]. destruct (Nat.eqb r g); cbn [andb].
    + rewrite (sumn_delta _ c); [rewrite Nat.eqb_refl; reflexivity|apply (B (r, c, v)); left; auto|]. intros i _ Hi. destruct (Nat.eqb_spec c i); [congruence|ring].
    + apply sumn_zero. intros; ring.
Qed.

(** an assembled matrix: the local matrices added, some diagonal entries set to one *)
Lemma add_terms_some pat con terms old M : add_terms pat con terms old = Some M ->
  (forall r c, M r c = suml terms (fun t => suml (term_entries con t) (pick r c))) /\ (forall t e, In t terms -> In e (term_entries con t) -> allowed pat e).
Proof.
  unfold add_terms. intros H. apply adds_some in H as [H1 H2]. split.
  - intros r c. rewrite H1. unfold set_zero. rewrite suml_flat_map. ring.
  - intros t e It Ie. apply H2. apply in_flat_map. exists t. auto.
Qed.
Lemma add_terms_defined pat con terms old : (forall t e, In t terms -> In e (term_entries con t) -> allowed pat e) ->
  exists M, add_terms pat con terms old = Some M.
Proof. intros H. apply adds_defined. intros e I. apply in_flat_map in I as (t & It & Ie). eauto. Qed.

Definition term_below (N : nat) (con : constraints) (t : term) : Prop :=
  (forall a, (a < t_n t)%nat -> (t_row t a < N)%nat) /\ (forall b, (b < t_m t)%nat -> (t_col t b < N)%nat).
Lemma entries_below con N t e : (forall h l mw, con h = Some l -> In mw l -> (fst mw < N)%nat) -> term_below N con t ->
  In e (term_entries con t) -> (fst (fst e) < N)%nat /\ (snd (fst e) < N)%nat.
Proof.
  intros Hm [B1 B2] I. destruct e as [[r c] v]. cbn.
  assert (X : forall h m w, (h < N)%nat -> In (m, w) (expand con h) -> (m < N)%nat).
  { intros h m w Hh. unfold expand. destruct (con h) eqn:E; intros Y; [exact (Hm _ _ _ E Y)|]. destruct Y as [Y|[]]. injection Y as <- _. exact Hh. }
  apply term_entries_in in I as [(a & b & wr & wc & Ha & Hb & Ir & Ic & _)|(_ & <- & _ & a & Ha & <- & _)].
  - exact (conj (X _ _ _ (B1 a Ha) Ir) (X _ _ _ (B2 b Hb) Ic)).
  - exact (conj (B1 a Ha) (B1 a Ha)).
Qed.

Section Assembled.
Context (pat : list (nat * nat)) (con : constraints) (terms : list term) (ones : list nat) (old M : matrix) (N : nat).
Context (HC : closed con) (HM : forall h l mw, con h = Some l -> In mw l -> (fst mw < N)%nat)
  (HB : forall t, In t terms -> term_below N con t) (HO : forall i, In i ones -> con i <> None).
Context (HA : fold_left (set_one pat) ones (add_terms pat con terms old) = Some M).
Lemma assembled_free x g : con g = None -> sumn N (fun h => M g h * x h) = suml terms (fun t => term_action con t x g).
Proof.
  intros Hg. destruct (add_terms pat con terms old) as [M0|] eqn:E; [|rewrite set_none in HA; discriminate].
  pose proof (sets_some _ _ _ _ HA) as S. apply add_terms_some in E as [E _].
  assert (Q : existsb (Nat.eqb g) ones = false).
  { apply not_true_iff_false. intros X. apply existsb_exists in X as (i & I & X). apply Nat.eqb_eq in X. subst. apply HO in I. contradiction. }
  transitivity (sumn N (fun h => suml (flat_map (term_entries con) terms) (pick g h) * x h)).
  { apply sumn_ext. intros h _. rewrite S, Q, andb_false_r, E, suml_flat_map. reflexivity. }
  rewrite row_dot.
  - rewrite suml_flat_map. apply suml_ext. intros t _. apply row_action. exact Hg.
  - intros e I. apply in_flat_map in I as (t & It & Ie). apply (entries_below con N t e HM (HB t It) Ie).
Qed.
Lemma assembled_constrained g h : con g <> None ->
  let d := if existsb (Nat.eqb g) ones then 1 else suml terms (fun t => own_diagonal con t g) in
  M g h = (if Nat.eqb g h then d else 0) /\ M h g = (if Nat.eqb g h then d else 0).
Proof.
  intros Hg d. destruct (add_terms pat con terms old) as [M0|] eqn:E; [|rewrite set_none in HA; discriminate].
  pose proof (sets_some _ _ _ _ HA) as S. apply add_terms_some in E as [E _]. rewrite !S, !E.
  assert (E1 : forall u v, (u = g /\ v = h) \/ (u = h /\ v = g) -> suml terms (fun t => suml (term_entries con t) (pick u v)) = if Nat.eqb g h then suml terms (fun t => own_diagonal con t g) else 0).
  { intros u v [[-> ->]|[-> ->]]; (transitivity (suml terms (fun t => if Nat.eqb g h then own_diagonal con t g else 0));
      [apply suml_ext; intros t _; apply (row_constrained con t g h HC Hg)|destruct (Nat.eqb g h); [reflexivity|apply suml_zero; auto]]). }
  rewrite !E1 by auto. unfold d. rewrite (Nat.eqb_sym h g). destruct (Nat.eqb_spec g h) as [<-|]; cbn [andb]; [|auto].
  destruct (existsb (Nat.eqb g) ones); auto.
Qed.
End Assembled.

(** ** The local numbering *)
Lemma fold_last {W} (P : W -> bool) (f : W -> R) v l : forall a, (forall w, In w l -> P w = true -> f w = v) ->
  fold_left (fun acc w => if P w then f w else acc) l a = if existsb P l then v else a.
Proof.
  induction l as [|w l IH]; intros a H; [reflexivity|]. cbn [fold_left existsb]. rewrite IH by (intros; apply H; [right|]; auto).
  destruct (P w) eqn:E; cbn [orb]; [|reflexivity]. rewrite (H w (or_introl eq_refl) E). destruct (existsb P l); reflexivity.
Qed.
Lemma fold_ext {A B} (f g : A -> B -> A) l : (forall a b, f a b = g a b) -> forall a, fold_left f l a = fold_left g l a.
Proof. intros H. induction l as [|b l IH]; intros a; cbn; [reflexivity|]. rewrite H. apply IH. Qed.
Lemma NoDup_app_intro {A} (l m : list A) : NoDup l -> NoDup m -> (forall x, In x l -> In x m -> False) -> NoDup (l ++ m).
Proof.
  induction 1 as [|x l Hx Hl IH]; intros Hm D; cbn; [exact Hm|]. constructor; [|apply IH; [exact Hm|intros y I; apply D; right; exact I]].
  intros I. apply in_app_or in I as [I|I]; [contradiction|]. apply (D x); [left|]; auto.
Qed.
Definition pairs (sp : space) : list (nat * nat) := flat_map (fun d => map (fun i => (d, i)) (seq 0 (s_dofs sp))) (seq 0 (s_dim sp)).
Lemma pairs_in sp d i : In (d, i) (pairs sp) <-> (d < s_dim sp)%nat /\ (i < s_dofs sp)%nat.
Proof.
  unfold pairs. rewrite in_flat_map. split.
  - intros (e & I & H). apply in_seq in I. apply in_map_iff in H as (j & E & H). injection E as -> ->. apply in_seq in H. lia.
  - intros [H1 H2]. exists d. split; [apply in_seq; lia|]. apply in_map_iff. exists i. split; [reflexivity|apply in_seq; lia].
Qed.
Lemma pairs_nodup sp : NoDup (pairs sp).
Proof.
  unfold pairs. assert (G : forall l : list nat, NoDup l -> NoDup (flat_map (fun d => map (fun i => (d, i)) (seq 0 (s_dofs sp))) l)).
  { induction 1 as [|d l Hd Hl IH]; cbn; [constructor|]. apply NoDup_app_intro; [|exact IH|].
    - apply FinFun.Injective_map_NoDup; [intros x y E; congruence|apply seq_NoDup].
    - intros [a b] I J. apply in_map_iff in I as (i & E & _). injection E as <- <-. apply in_flat_map in J as (e & Ie & J). apply in_map_iff in J as (j & E & _).
      injection E as -> _. contradiction. }
  apply G, seq_NoDup.
Qed.
Lemma pairs_length sp : length (pairs sp) = (s_dim sp * s_dofs sp)%nat.
Proof.
  unfold pairs. assert (G : forall l, length (flat_map (fun d : nat => map (fun i => (d, i)) (seq 0 (s_dofs sp))) l) = (length l * s_dofs sp)%nat).
  { induction l; cbn; [reflexivity|]. rewrite app_length, map_length, seq_length, IHl. reflexivity. }
  rewrite G, seq_length. reflexivity.
Qed.
Lemma numbering_perm sp : numbering sp -> Permutation (map (fun di => s_lo sp (fst di) (snd di)) (pairs sp)) (seq 0 (s_dim sp * s_dofs sp)).
Proof.
  intros [H1 H2]. apply NoDup_Permutation_bis.
  - assert (G : forall l, NoDup l -> (forall d i, In (d, i) l -> (d < s_dim sp)%nat /\ (i < s_dofs sp)%nat) -> NoDup (map (fun di => s_lo sp (fst di) (snd di)) l)).
    { induction 1 as [|[d i] l Hd Hl IH]; intros B; cbn; constructor.
      - intros I. apply in_map_iff in I as ([d' i'] & E & I). cbn in E. destruct (B d i (or_introl eq_refl)). destruct (B d' i' (or_intror I)).
        destruct (H2 d' i' d i) as [-> ->]; auto.
      - apply IH. intros; apply B; right; auto. }
    apply G; [apply pairs_nodup|intros d i I; apply pairs_in; exact I].
  - rewrite map_length, pairs_length, seq_length. lia.
  - intros k I. apply in_map_iff in I as ([d i] & <- & I). apply pairs_in in I as [I1 I2]. apply in_seq. cbn. destruct (H1 d i I1 I2). lia.
Qed.
Lemma numbering_onto sp k : numbering sp -> (k < s_dim sp * s_dofs sp)%nat -> exists d i, (d < s_dim sp)%nat /\ (i < s_dofs sp)%nat /\ s_lo sp d i = k.
Proof.
  intros H Hk. assert (I : In k (map (fun di => s_lo sp (fst di) (snd di)) (pairs sp))).
  { apply (Permutation_in _ (Permutation_sym (numbering_perm sp H))). apply in_seq. lia. }
  apply in_map_iff in I as ([d i] & <- & I). apply pairs_in in I as [I1 I2]. exists d, i. auto.
Qed.
Lemma sum_numbering sp f : numbering sp -> sumn (s_dim sp * s_dofs sp) f = sumn (s_dim sp) (fun d => sumn (s_dofs sp) (fun i => f (s_lo sp d i))).
Proof.
  intros H. rewrite <- Properties_InteriorPenalty.sumn_seq. rewrite <- (Properties_InteriorPenalty.suml_perm _ _ _ (numbering_perm sp H)).
  rewrite suml_map. unfold pairs. rewrite suml_flat_map, suml_seq0. apply sumn_ext. intros d _. rewrite suml_map, suml_seq0. reflexivity.
Qed.
Lemma velocity_matrix_value sp V d i d' j : numbering sp -> (d < s_dim sp)%nat -> (i < s_dofs sp)%nat -> (d' < s_dim sp)%nat -> (j < s_dofs sp)%nat ->
  velocity_matrix sp V (s_lo sp d i) (s_lo sp d' j) = if Nat.eqb d d' then V d i j else 0.
Proof.
  intros [H1 H2] Hd Hi Hd' Hj. unfold velocity_matrix.
  set (l := flat_map _ _).
  assert (L : forall i0 j0 d0, In (i0, j0, d0) l <-> (i0 < s_dofs sp)%nat /\ (j0 < s_dofs sp)%nat /\ (d0 < s_dim sp)%nat).
  { intros i0 j0 d0. unfold l. rewrite in_flat_map. split.
    - intros (a & Ia & I). apply in_flat_map in I as (b & Ib & I). apply in_map_iff in I as (e & E & Ie). injection E as -> -> ->.
      apply in_seq in Ia. apply in_seq in Ib. apply in_seq in Ie. lia.
    - intros (A & B & C). exists i0. split; [apply in_seq; lia|]. apply in_flat_map. exists j0. split; [apply in_seq; lia|].
      apply in_map_iff. exists d0. split; [reflexivity|apply in_seq; lia]. }
  set (P := fun w : nat * nat * nat => let '(a, b, e) := w in Nat.eqb (s_lo sp d i) (s_lo sp e a) && Nat.eqb (s_lo sp d' j) (s_lo sp e b)).
  assert (Q : forall a b e, In (a, b, e) l -> P (a, b, e) = true -> e = d /\ e = d' /\ a = i /\ b = j).
  { intros a b e I E. apply L in I as (A & B & C). apply andb_true_iff in E as [E1 E2]. apply Nat.eqb_eq in E1, E2.
    apply H2 in E1; auto. apply H2 in E2; auto. destruct E1, E2. subst. auto. }
  transitivity (fold_left (fun acc w => if P w then (let '(a, b, e) := w in V e a b) else acc) l 0).
  { apply fold_ext. intros acc [[a b] e]. reflexivity. }
  rewrite (fold_last P _ (V d i j)).
  2:{ intros [[a b] e] I E. destruct (Q a b e I E) as (-> & _ & -> & ->). reflexivity. }
  destruct (existsb P l) eqn:EX.
  - apply existsb_exists in EX as ([[a b] e] & I & E). destruct (Q a b e I E) as (-> & -> & _ & _). rewrite Nat.eqb_refl. reflexivity.
  - destruct (Nat.eqb_spec d d') as [<-|]; [|reflexivity]. exfalso. rewrite <- not_true_iff_false in EX. apply EX. apply existsb_exists. exists (i, j, d).
    split; [apply L; auto|]. unfold P. rewrite !Nat.eqb_refl. reflexivity.
Qed.

(** a local matrix whose nonzero entries have room in a piece of the pattern *)
Definition covers (q : piece) (t : term) : Prop :=
  exists f g, (t_diag t = true -> q_diag q = true) /\
    (forall a, (a < t_n t)%nat -> (f a < q_n q)%nat /\ q_row q (f a) = t_row t a) /\
    (forall b, (b < t_m t)%nat -> (g b < q_m q)%nat /\ q_col q (g b) = t_col t b) /\
    (forall a b, (a < t_n t)%nat -> (b < t_m t)%nat -> t_val t a b = 0 \/ q_mask q (f a) (g b) = true).
Lemma covers_allowed con q t e pat : covers q t -> (forall x, In x (piece_pattern con q) -> In x pat) -> In e (term_entries con t) -> allowed pat e.
Proof.
  intros (f & g & CD & CR & CC & CM) HP I. destruct e as [[r k] v]. unfold allowed. cbn [fst snd].
  apply term_entries_in in I as [(a & b & wr & wc & Ha & Hb & Ir & Ik & ->)|(Hd & <- & Hc & a & Ha & <- & ->)].
  - destruct (CM a b Ha Hb) as [Z|Hm]; [left; rewrite Z; ring|right]. apply HP. destruct (CR a Ha) as [A1 A2]. destruct (CC b Hb) as [B1 B2].
    unfold piece_pattern. apply in_or_app. left. apply in_flat_map. exists (f a). split; [apply in_seq; lia|]. apply in_flat_map. exists (g b). split; [apply in_seq; lia|].
    rewrite Hm. apply in_flat_map. exists (r, wr). rewrite A2. split; [exact Ir|]. apply in_map_iff. exists (k, wc). rewrite B2. auto.
  - right. apply HP. destruct (CR a Ha) as [A1 A2]. unfold piece_pattern. apply in_or_app. right. rewrite (CD Hd). apply in_flat_map. exists (f a). split; [apply in_seq; lia|].
    rewrite A2. destruct (con (t_row t a)); [left; reflexivity|congruence].
Qed.
Lemma piece_diagonal con q a : (a < q_n q)%nat -> q_diag q = true -> con (q_row q a) <> None -> In (q_row q a, q_row q a) (piece_pattern con q).
Proof.
  intros Ha Hd Hc. unfold piece_pattern. apply in_or_app. right. rewrite Hd. apply in_flat_map. exists a. split; [apply in_seq; lia|].
  destruct (con (q_row q a)); [left; reflexivity|congruence].
Qed.

(** ** C102: the velocity matrix *)
Definition dof_of (p : precondition_velocity) : gcell -> nat -> nat := match p with u_ilu_scalar => g_scalar | _ => g_u end.
Definition dofs_of (p : precondition_velocity) (sp : space) : nat := match p with u_ilu_scalar => s_dofs sp | _ => (s_dim sp * s_dofs sp)%nat end.
(** With the settings of the setup, the assembly never leaves the sparsity pattern (with hanging nodes, periodicity, and constraints
    between the components such as no normal flux on oblique boundaries).  The same holds for the initial Stokes solve, which always
    uses linear sub-elements, unless the setup was for the scalar matrix. *)
Theorem C102_velocity_defined : forall o0 o sp conu conscalar cons n_u cells old,
  numbering sp -> sub_elements (s_dofs sp) (s_vertices sp) (s_sub_u sp) ->
  o_velocity o = o_velocity o0 \/ (o_velocity o = u_amg_linear /\ o_velocity o0 <> u_ilu_scalar) ->
  let con := velocity_constraints (o_velocity o) conu conscalar in
  unknowns con n_u (dofs_of (o_velocity o) sp) (dof_of (o_velocity o)) cells ->
  exists M, assemble_u o sp conu conscalar n_u (initialize_matrices o0 sp conu conscalar cons cells) cells old = Some M.
Proof.
  intros o0 o sp conu conscalar cons n_u cells old HN HS HO con HU. unfold assemble_u. fold con.
  set (pats := initialize_matrices o0 sp conu conscalar cons cells).
  assert (EC : velocity_constraints (o_velocity o0) conu conscalar = con).
  { unfold con. destruct HO as [->|[-> N]]; [reflexivity|]. destruct (o_velocity o0); try reflexivity. contradiction. }
  assert (PI : forall c q x, In c cells -> In q (velocity_pieces (o_velocity o0) sp c) -> In x (piece_pattern con q) -> In x (pat_u pats)).
  { intros c q x Ic Iq Ix. unfold pats, initialize_matrices. cbn [pat_u]. rewrite EC. apply in_flat_map. exists c. split; [exact Ic|]. apply in_flat_map. exists q. auto. }
  assert (LIN : o_velocity o0 <> u_ilu_scalar -> forall c sub d A, In sub (s_sub_u sp) -> (d < s_dim sp)%nat ->
     exists q, In q (velocity_pieces (o_velocity o0) sp c) /\
       covers q (MkTerm (s_vertices sp) (fun k => g_u c (s_lo sp d (sub k))) (s_vertices sp) (fun k => g_u c (s_lo sp d (sub k))) A true)).
  { intros NS c sub d A Is Hd. destruct HN as [N1 N2]. destruct HS as [HS1 _].
    assert (X : forall k, (k < s_vertices sp)%nat -> (s_lo sp d (sub k) < s_dim sp * s_dofs sp)%nat /\ s_comp sp (s_lo sp d (sub k)) = d).
    { intros k Hk. apply N1; [exact Hd|]. apply HS1; auto. }
    destruct (o_velocity o0) eqn:E0; [| congruence | |].
    1,3: (eexists; split; [left; reflexivity|]; exists (fun k => s_lo sp d (sub k)), (fun k => s_lo sp d (sub k)); cbn [q_diag q_n q_m q_row q_col q_mask t_n t_m t_row t_col t_val t_diag];
      refine (conj (fun _ => eq_refl) (conj _ (conj _ _))); [intros k Hk; split; [apply X; exact Hk|reflexivity]|intros k Hk; split; [apply X; exact Hk|reflexivity]|];
      intros a b Ha Hb; right; rewrite (proj2 (X a Ha)), (proj2 (X b Hb)); apply Nat.eqb_refl).
    exists (MkPiece (s_vertices sp) (fun k => g_u c (s_lo sp d (sub k))) (s_vertices sp) (fun k => g_u c (s_lo sp d (sub k))) (fun _ _ => true) true). split.
    - cbn [velocity_pieces]. apply in_flat_map. exists sub. split; [exact Is|]. apply in_map_iff. exists d. split; [reflexivity|apply in_seq; lia].
    - exists (fun k => k), (fun k => k). cbn. auto. }
  assert (FULL : forall c, covers (MkPiece (s_dim sp * s_dofs sp) (g_u c) (s_dim sp * s_dofs sp) (g_u c) (fun k l => Nat.eqb (s_comp sp k) (s_comp sp l)) true)
      (MkTerm (s_dim sp * s_dofs sp) (g_u c) (s_dim sp * s_dofs sp) (g_u c) (velocity_matrix sp (g_V c)) true)).
  { intros c. exists (fun k => k), (fun k => k). cbn [q_diag q_n q_m q_row q_col q_mask t_n t_m t_row t_col t_val t_diag].
    refine (conj (fun _ => eq_refl) (conj _ (conj _ _))); auto. intros a b Ha Hb.
    destruct (numbering_onto sp a HN Ha) as (d & i & Hd & Hi & <-). destruct (numbering_onto sp b HN Hb) as (d' & j & Hd' & Hj & <-).
    rewrite velocity_matrix_value by auto. destruct HN as [N1 _]. rewrite (proj2 (N1 d i Hd Hi)), (proj2 (N1 d' j Hd' Hj)). destruct (Nat.eqb d d'); auto. }
  assert (TP : forall c t, In c cells -> In t (velocity_terms (o_velocity o) sp c) -> exists q, In q (velocity_pieces (o_velocity o0) sp c) /\ covers q t).
  { intros c t Ic It. destruct (o_velocity o) eqn:E.
    - destruct HO as [<-|[HO _]]; [|discriminate]. destruct It as [<-|[]]. eexists. split; [left; reflexivity|apply FULL].
    - destruct HO as [<-|[HO _]]; [|discriminate]. destruct It as [<-|[]]. eexists. split; [left; reflexivity|]. exists (fun k => k), (fun k => k). cbn. auto.
    - cbn [velocity_terms] in It. apply in_flat_map in It as ([s sub] & Is & It). apply in_map_iff in It as (d & <- & Id). cbn [fst snd]. apply in_seq in Id.
      apply LIN; [destruct HO as [HO|[_ HO]]; [congruence|exact HO]|exact (in_combine_r _ _ _ _ Is)|lia].
    - destruct HO as [<-|[HO _]]; [|discriminate]. destruct It as [<-|[]]. eexists. split; [left; reflexivity|apply FULL]. }
  destruct (add_terms_defined (pat_u pats) con (flat_map (velocity_terms (o_velocity o) sp) cells) old) as [M0 E0].
  { intros t e It Ie. apply in_flat_map in It as (c & Ic & It). destruct (TP c t Ic It) as (q & Iq & Q). apply (covers_allowed con q t e _ Q); [|exact Ie].
    intros x Ix. exact (PI c q x Ic Iq Ix). }
  rewrite E0. apply sets_defined. intros g Ig. apply filter_In in Ig as [Ig Cg]. apply in_seq in Ig. destruct HU as (U1 & U2 & U3).
  destruct (U2 g) as (c & k & Ic & Hk & Ek); [lia|].
  (* the unknown is in a piece of its cell *)
  assert (Cg' : con g <> None) by (unfold constrained in Cg; destruct (con g); congruence).
  destruct (o_velocity o) eqn:E.
  1,2,4: (destruct HO as [HO|[HO _]]; [|discriminate]; cbn [dof_of dofs_of] in *; subst g;
    apply (PI c (hd (MkPiece 0 (fun a => a) 0 (fun a => a) (fun _ _ => true) true) (velocity_pieces (o_velocity o0) sp c)));
    [exact Ic|rewrite <- HO; left; reflexivity|rewrite <- HO; cbn [velocity_pieces hd]; match goal with |- In _ (piece_pattern _ ?q) => exact (piece_diagonal con q k Hk eq_refl Cg') end]).
  cbn [dof_of dofs_of] in *. destruct (numbering_onto sp k HN Hk) as (d & i & Hd & Hi & <-). destruct HS as [HS1 HS2]. destruct (HS2 i Hi) as (sub & v & Is & Hv & Ev).
  destruct (LIN ltac:(destruct HO as [HO|[_ HO]]; [congruence|exact HO]) c sub d (fun _ _ => 0) Is Hd) as (q & Iq & (f & h & CD & CR & _)).
  destruct (CR v Hv) as [F1 F2]. cbn [t_row t_diag] in *. rewrite Ev, Ek in F2. subst g. rewrite <- F2. apply (PI c q); auto. apply piece_diagonal; auto. rewrite F2. exact Cg'.
Qed.
Print Assumptions C102_velocity_defined.

Lemma action_term con n dof A d x g : term_action con (MkTerm n dof n dof A d) x g = action con n dof A x g.
Proof. reflexivity. Qed.
Lemma action_ext con n dof dof' A A' x g : (forall a, (a < n)%nat -> dof a = dof' a) -> (forall a b, (a < n)%nat -> (b < n)%nat -> A a b = A' a b) -> action con n dof A x g = action con n dof' A' x g.
Proof.
  intros H1 H2. unfold action. apply sumn_ext. intros a Ha. rewrite H1 by auto. f_equal. apply sumn_ext. intros b Hb. rewrite H1, H2 by auto. reflexivity.
Qed.
Lemma block_action con sp dof V x g : numbering sp ->
  action con (s_dim sp * s_dofs sp) dof (velocity_matrix sp V) x g = sumn (s_dim sp) (fun d => action con (s_dofs sp) (fun i => dof (s_lo sp d i)) (V d) x g).
Proof.
  intros HN. unfold action. rewrite (sum_numbering sp _ HN). apply sumn_ext. intros d Hd. apply sumn_ext. intros i Hi. f_equal.
  rewrite (sum_numbering sp _ HN). rewrite (sumn_delta _ d); [|exact Hd|].
  - apply sumn_ext. intros j Hj. rewrite velocity_matrix_value by auto. rewrite Nat.eqb_refl. reflexivity.
  - intros d' Hd' N. apply sumn_zero. intros j Hj. rewrite velocity_matrix_value by auto. destruct (Nat.eqb_spec d d'); [congruence|ring].
Qed.
Lemma suml_combine {A} (l : list A) (z : A) (f : nat -> A -> R) :
  suml (combine (seq 0 (length l)) l) (fun p => f (fst p) (snd p)) = sumn (length l) (fun s => f s (nth s l z)).
Proof.
  assert (G : forall k, suml (combine (seq k (length l)) l) (fun p => f (fst p) (snd p)) = sumn (length l) (fun s => f (k + s)%nat (nth s l z))).
  { induction l as [|a l IH]; intros k; [reflexivity|]. cbn [length seq combine suml]. rewrite IH. cbn [fst snd].
    rewrite <- !Properties_InteriorPenalty.sumn_seq. change (seq 0 (S (length l))) with (0%nat :: seq 1 (length l)). cbn [suml].
    rewrite <- seq_shift, suml_map. rewrite Nat.add_0_r. f_equal. apply suml_ext. intros s _. rewrite Nat.add_succ_r. reflexivity. }
  apply G.
Qed.
(** On every mesh and for each of the four velocity preconditioners: the matrix acts on the free unknowns like the sum of the cell operators
    with the constraints resolved, and a constrained unknown is decoupled and has a one on the diagonal, like in the operator without
    matrix. *)
Theorem C102_velocity : forall o sp conu conscalar n_u pats cells old M,
  numbering sp -> sub_elements (s_dofs sp) (s_vertices sp) (s_sub_u sp) ->
  let con := velocity_constraints (o_velocity o) conu conscalar in
  closed con -> unknowns con n_u (dofs_of (o_velocity o) sp) (dof_of (o_velocity o)) cells ->
  assemble_u o sp conu conscalar n_u pats cells old = Some M ->
  (forall x g, con g = None -> sumn n_u (fun h => M g h * x h) = velocity_operator (o_velocity o) sp con cells x g) /\
  (forall g h, (g < n_u)%nat -> con g <> None -> M g h = (if Nat.eqb g h then 1 else 0) /\ M h g = (if Nat.eqb g h then 1 else 0)).
Proof.
  intros o sp conu conscalar n_u pats cells old M HN HS con HC (U1 & U2 & U3) HA. unfold assemble_u in HA. fold con in HA.
  set (terms := flat_map (velocity_terms (o_velocity o) sp) cells) in HA.
  assert (HB : forall t, In t terms -> term_below n_u con t).
  { intros t It. unfold terms in It. apply in_flat_map in It as (c & Ic & It). unfold velocity_terms in It. destruct (o_velocity o).
    1,2,4: (destruct It as [<-|[]]; split; cbn [t_n t_m t_row t_col]; intros a Ha; apply (U1 c a Ic Ha)).
    apply in_flat_map in It as ([s sub] & Is & It). apply in_map_iff in It as (d & <- & Id). apply in_seq in Id. apply in_combine_r in Is. cbn [snd].
    destruct HS as [HS1 _]. destruct HN as [N1 _].
    split; cbn [t_n t_m t_row t_col]; intros a Ha; apply (U1 c _ Ic); cbn [dofs_of]; apply N1; try lia; apply HS1; auto. }
  assert (HO : forall i, In i (filter (constrained con) (seq 0 n_u)) -> con i <> None).
  { intros i I. apply filter_In in I as [_ I]. unfold constrained in I. destruct (con i); congruence. }
  split.
  - intros x g Hg. rewrite (assembled_free _ _ _ _ _ _ _ U3 HB HO HA x g Hg). unfold terms, velocity_operator. rewrite suml_flat_map. apply suml_ext. intros c Ic.
    unfold velocity_terms. destruct (o_velocity o); cbn [suml]; rewrite ?Rplus_0_r, ?action_term.
    1,4: apply block_action; exact HN.
    + reflexivity.
    + rewrite suml_flat_map. rewrite (suml_ext _ _ (fun p => sumn (s_dim sp) (fun d => action con (s_vertices sp) (fun k => g_u c (s_lo sp d (snd p k))) (g_L c (fst p) d) x g))).
      * apply (suml_combine (s_sub_u sp) (fun _ => 0%nat) (fun s sub => sumn (s_dim sp) (fun d => action con (s_vertices sp) (fun k => g_u c (s_lo sp d (sub k))) (g_L c s d) x g))).
      * intros p _. rewrite suml_map, suml_seq0. reflexivity.
  - intros g h Hg Cg. destruct (assembled_constrained _ _ _ _ _ _ HC HA g h Cg) as [X Y]. rewrite X, Y.
    assert (existsb (Nat.eqb g) (filter (constrained con) (seq 0 n_u)) = true) as ->; [|auto].
    apply existsb_exists. exists g. split; [|apply Nat.eqb_refl]. apply filter_In. split; [apply in_seq; lia|]. unfold constrained. destruct (con g); congruence.
Qed.
Print Assumptions C102_velocity.

(** ** C102: the pressure matrices *)
Lemma identity_covers n row m col A d : covers (MkPiece n row m col (fun _ _ => true) d) (MkTerm n row m col A d).
Proof. exists (fun k => k), (fun k => k). cbn. auto. Qed.
Lemma sub_covers_full n dof vertices (sub : nat -> nat) A : (forall k, (k < vertices)%nat -> (sub k < n)%nat) ->
  covers (MkPiece n dof n dof (fun _ _ => true) true) (MkTerm vertices (fun k => dof (sub k)) vertices (fun k => dof (sub k)) A true).
Proof. intros H. exists sub, sub. cbn. auto 6. Qed.
(** The pressure matrices have room for everything that is assembled, also in the initial Stokes solve. *)
Theorem C102_pressure_defined : forall o0 o sp conu conscalar conp cons n_p cells old,
  sub_elements (s_dofs_p sp) (s_vertices sp) (s_sub_p sp) ->
  o_velocity o = o_velocity o0 \/ o_velocity o = u_amg_linear ->
  o_augmented o = o_augmented o0 -> o_mass_ilu o = o_mass_ilu o0 -> (o_density o = true -> o_density o0 = true) ->
  unknowns cons n_p (s_dofs_p sp) g_p cells ->
  let pats := initialize_matrices o0 sp conu conscalar cons cells in
  (exists M, assemble_p o sp conp cons n_p pats cells old = Some M) /\ (exists M, assemble_mass o sp cons pats cells old = Some M).
Proof.
  intros o0 o sp conu conscalar conp cons n_p cells old [HS1 HS2] HV HAU HMI HD (U1 & U2 & U3) pats.
  assert (LIN : uses_linear o = true -> forall c sub A, In sub (s_sub_p sp) -> exists q, In q (pressure_pieces o0 sp c) /\
     covers q (MkTerm (s_vertices sp) (fun k => g_p c (sub k)) (s_vertices sp) (fun k => g_p c (sub k)) A true)).
  { intros L c sub A Is. unfold pressure_pieces. destruct (o_velocity o0).
    1,2,4: (eexists; split; [left; reflexivity|apply sub_covers_full; intros k Hk; apply HS1; auto]).
    destruct (o_augmented o0).
    - eexists; split; [left; reflexivity|apply sub_covers_full; intros k Hk; apply HS1; auto].
    - eexists. split; [apply in_map_iff; exists sub; split; [reflexivity|exact Is]|apply identity_covers]. }
  assert (FULL : uses_linear o = false -> forall c A, exists q, In q (pressure_pieces o0 sp c) /\
     covers q (MkTerm (s_dofs_p sp) (g_p c) (s_dofs_p sp) (g_p c) A true)).
  { intros L c A. unfold uses_linear in L. unfold pressure_pieces. exists (MkPiece (s_dofs_p sp) (g_p c) (s_dofs_p sp) (g_p c) (fun _ _ => true) true). split; [|apply identity_covers].
    rewrite <- HAU. destruct HV as [<-|HV]; [destruct (o_velocity o)|rewrite HV in L; destruct (o_velocity o0)]; destruct (o_augmented o); try discriminate L; left; reflexivity. }
  assert (COVER : forall g, (g < n_p)%nat -> cons g <> None -> forall c k, In c cells -> (k < s_dofs_p sp)%nat -> g_p c k = g ->
     exists q, In q (pressure_pieces o0 sp c) /\ In (g, g) (piece_pattern cons q)).
  { intros g Hg Cg c k Ic Hk <-. unfold pressure_pieces. 
    assert (F : exists q, In q [MkPiece (s_dofs_p sp) (g_p c) (s_dofs_p sp) (g_p c) (fun _ _ => true) true] /\ In (g_p c k, g_p c k) (piece_pattern cons q)).
    { eexists. split; [left; reflexivity|]. match goal with |- In _ (piece_pattern _ ?q) => exact (piece_diagonal cons q k Hk eq_refl Cg) end. }
    destruct (o_velocity o0); try exact F. destruct (o_augmented o0); [exact F|]. destruct (HS2 k Hk) as (sub & v & Is & Hv & <-).
    eexists. split; [apply in_map_iff; exists sub; split; [reflexivity|exact Is]|].
    match goal with |- In _ (piece_pattern _ ?q) => exact (piece_diagonal cons q v Hv eq_refl Cg) end. }
  split.
  - unfold assemble_p. destruct (o_density o) eqn:ED; [|eexists; reflexivity].
    assert (PP : pat_p pats = Some (if o_augmented o then flat_map (fun c => flat_map (piece_pattern cons) (augmented_pieces sp c)) cells
                                    else flat_map (fun c => flat_map (piece_pattern cons) (pressure_pieces o0 sp c)) cells)).
    { unfold pats, initialize_matrices. cbn [pat_p]. rewrite (HD eq_refl), HAU. destruct (o_augmented o0); reflexivity. }
    rewrite PP. set (pat := if o_augmented o then _ else _).
    assert (PI : forall c q x, In c cells -> In q (if o_augmented o then augmented_pieces sp c else pressure_pieces o0 sp c) -> In x (piece_pattern cons q) -> In x pat).
    { intros c q x Ic Iq Ix. unfold pat. destruct (o_augmented o); apply in_flat_map; (exists c; split; [exact Ic|]); apply in_flat_map; exists q; auto. }
    destruct (add_terms_defined pat cons (flat_map (poisson_terms o sp) cells) old) as [M0 E0].
    { intros t e It Ie. apply in_flat_map in It as (c & Ic & It).
      assert (X : exists q, In q (if o_augmented o then augmented_pieces sp c else pressure_pieces o0 sp c) /\ covers q t).
      { unfold poisson_terms in It. destruct (uses_linear o) eqn:L.
        - apply in_map_iff in It as ([s sub] & <- & Is). apply in_combine_r in Is. cbn [fst snd].
          assert (o_augmented o = false) as -> by (unfold uses_linear in L; destruct (o_velocity o), (o_augmented o); (discriminate || reflexivity)).
          apply LIN; auto.
        - destruct (o_augmented o) eqn:EA.
          + apply in_app_or in It as [It|[<-|[]]].
            * apply in_flat_map in It as (f & If & It). unfold augmented_pieces.
              destruct It as [<-|[<-|[]]]; eexists; (split; [right; apply in_flat_map; exists f; split; [exact If|]|apply identity_covers]); [left; reflexivity|right; left; reflexivity].
            * eexists. split; [left; reflexivity|apply identity_covers].
          + destruct It as [<-|[]]. apply FULL; auto. }
      destruct X as (q & Iq & Q). apply (covers_allowed cons q t e pat Q); [|exact Ie]. intros x Ix. exact (PI c q x Ic Iq Ix). }
    rewrite E0. apply sets_defined. intros g Ig. apply filter_In in Ig as [Ig Cg]. apply in_seq in Ig. apply andb_true_iff in Cg as [Cg _].
    assert (Cg' : cons g <> None) by (unfold constrained in Cg; destruct (cons g); congruence). assert (Hg : (g < n_p)%nat) by lia.
    destruct (U2 g Hg) as (c & k & Ic & Hk & Ek). destruct (o_augmented o) eqn:EA.
    + apply (PI c (MkPiece (s_dofs_p sp) (g_p c) (s_dofs_p sp) (g_p c) (fun _ _ => true) true) (g, g) Ic); [left; reflexivity|]. subst g.
      match goal with |- In _ (piece_pattern _ ?q) => exact (piece_diagonal cons q k Hk eq_refl Cg') end.
    + destruct (COVER g Hg Cg' c k Ic Hk Ek) as (q & Iq & Q). exact (PI c q (g, g) Ic Iq Q).
  - unfold assemble_mass. destruct (o_mass_ilu o || o_augmented o) eqn:EM; [|eexists; reflexivity].
    assert (PP : pat_mass pats = Some (flat_map (fun c => flat_map (piece_pattern cons) (pressure_pieces o0 sp c)) cells)).
    { unfold pats, initialize_matrices. cbn [pat_mass]. rewrite <- HMI, <- HAU, EM. reflexivity. }
    rewrite PP. apply add_terms_defined. intros t e It Ie. apply in_flat_map in It as (c & Ic & It).
    assert (X : exists q, In q (pressure_pieces o0 sp c) /\ covers q t).
    { unfold mass_terms in It. destruct (uses_linear o) eqn:L.
      - destruct (o_mass_ilu o); [|destruct It]. apply in_map_iff in It as ([s sub] & <- & Is). apply in_combine_r in Is. cbn [fst snd]. apply LIN; auto.
      - rewrite EM in It. destruct It as [<-|[]]. apply FULL; auto. }
    destruct X as (q & Iq & Q). apply (covers_allowed cons q t e _ Q); [|exact Ie]. intros x Ix.
    apply in_flat_map. exists c. split; [exact Ic|]. apply in_flat_map. exists q. auto.
Qed.
Print Assumptions C102_pressure_defined.

(** what the cells and inner faces contribute to a pressure unknown *)
Definition poisson_operator (o : setting) (sp : space) (con : constraints) (cells : list gcell) (x : nat -> R) (g : nat) : R :=
  suml cells (fun c =>
    if uses_linear o then sumn (length (s_sub_p sp)) (fun s =>
      action con (s_vertices sp) (fun k => g_p c (nth s (s_sub_p sp) (fun _ => 0%nat) k)) (g_LP c s) x g)
    else action con (s_dofs_p sp) (g_p c) (pressure_matrix sp o c) x g +
      (if o_augmented o then suml (g_faces c) (fun f =>
         share con (f_neighbor f) g * sumn (s_dofs_p sp) (fun j => f_1 f j * value con x (g_p c j)) +
         sumn (s_dofs_p sp) (fun i => share con (g_p c i) g * (f_2 f i * value con x (f_neighbor f)))) else 0)).
Lemma poisson_below o sp cons n_p cells t :
  sub_elements (s_dofs_p sp) (s_vertices sp) (s_sub_p sp) -> unknowns cons n_p (s_dofs_p sp) g_p cells ->
  (forall c f, In c cells -> In f (g_faces c) -> (f_neighbor f < n_p)%nat) ->
  In t (flat_map (poisson_terms o sp) cells) -> term_below n_p cons t.
Proof.
  intros [HS1 _] (U1 & _ & _) HF It. apply in_flat_map in It as (c & Ic & It). unfold poisson_terms in It. destruct (uses_linear o).
  - apply in_map_iff in It as ([s sub] & <- & Is). apply in_combine_r in Is. split; cbn; intros a Ha; apply U1; auto.
  - apply in_app_or in It as [It|[<-|[]]]; [|split; cbn; intros a Ha; apply U1; auto]. destruct (o_augmented o); [|destruct It].
    apply in_flat_map in It as (f & If & It). destruct It as [<-|[<-|[]]]; split; cbn; intros a Ha; try (apply U1; auto; fail); eapply HF; eauto.
Qed.
Lemma only_spec n_p conp cons i : In i (schur_complement_only n_p conp cons) <-> (i < n_p)%nat /\ cons i <> None /\ conp i = None.
Proof.
  unfold schur_complement_only, constrained. rewrite filter_In, in_seq. split.
  - intros [H1 H2]. apply andb_true_iff in H2 as [H2 H3]. split; [lia|]. destruct (cons i), (conp i); try discriminate. split; congruence.
  - intros (H1 & H2 & H3). rewrite H3. destruct (cons i); [split; [lia|reflexivity]|congruence].
Qed.
Lemma ones_spec n_p conp cons i : existsb (Nat.eqb i) (filter (fun i => constrained cons i && negb (existsb (Nat.eqb i) (schur_complement_only n_p conp cons))) (seq 0 n_p)) = true
  <-> (i < n_p)%nat /\ cons i <> None /\ conp i <> None.
Proof.
  rewrite existsb_exists. split.
  - intros (j & I & E). apply Nat.eqb_eq in E. subst j. apply filter_In in I as [I1 I2]. apply in_seq in I1. apply andb_true_iff in I2 as [I2 I3].
    assert (A : cons i <> None) by (unfold constrained in I2; destruct (cons i); congruence). split; [lia|]. split; [exact A|]. intros Z.
    apply negb_true_iff in I3. rewrite <- not_true_iff_false in I3. apply I3. apply existsb_exists. exists i. split; [|apply Nat.eqb_refl]. apply only_spec. repeat split; auto. lia.
  - intros (H1 & H2 & H3). exists i. split; [|apply Nat.eqb_refl]. apply filter_In. split; [apply in_seq; lia|]. apply andb_true_iff. split; [unfold constrained; destruct (cons i); congruence|].
    apply negb_true_iff. apply not_true_iff_false. intros X. apply existsb_exists in X as (j & I & E). apply Nat.eqb_eq in E. subst j. apply only_spec in I as (_ & _ & Z). contradiction.
Qed.
(** The matrix of the pressure Poisson preconditioner: the free unknowns; a constrained unknown is decoupled, with one on the diagonal if it is
    constrained in the pressure space and with the sum of the local diagonal entries if only in the Schur complement. *)
Definition magnitude (o : setting) (sp : space) (cells : list gcell) (g : nat) : R :=
  suml cells (fun c => suml (poisson_terms o sp c) (fun t => if t_diag t then sumn (t_n t) (fun a => if Nat.eqb (t_row t a) g then new_diagonal t a else 0) else 0)).
Theorem C102_pressure : forall o sp conp cons n_p pats cells old M,
  sub_elements (s_dofs_p sp) (s_vertices sp) (s_sub_p sp) -> closed cons -> unknowns cons n_p (s_dofs_p sp) g_p cells ->
  (forall c f, In c cells -> In f (g_faces c) -> (f_neighbor f < n_p)%nat) ->
  o_density o = true -> assemble_p o sp conp cons n_p pats cells old = Some M ->
  (forall x g, cons g = None -> sumn n_p (fun h => M g h * x h) = poisson_operator o sp cons cells x g) /\
  (forall g h, (g < n_p)%nat -> cons g <> None ->
     let d := match conp g with Some _ => 1 | None => magnitude o sp cells g end in
     M g h = (if Nat.eqb g h then d else 0) /\ M h g = (if Nat.eqb g h then d else 0)).
Proof.
  intros o sp conp cons n_p pats cells old M HS HC HU HF HD HA. unfold assemble_p in HA. rewrite HD in HA. destruct (pat_p pats) as [pat|]; [|discriminate].
  assert (HB : forall t, In t (flat_map (poisson_terms o sp) cells) -> term_below n_p cons t) by (intros t It; eapply poisson_below; eauto).
  set (ones := filter _ _) in HA.
  assert (HO : forall i, In i ones -> cons i <> None).
  { intros i I. apply filter_In in I as [_ I]. apply andb_true_iff in I as [I _]. unfold constrained in I. destruct (cons i); congruence. }
  split.
  - intros x g Hg. destruct HU as (U1 & U2 & U3). rewrite (assembled_free _ _ _ _ _ _ _ U3 HB HO HA x g Hg). rewrite suml_flat_map. apply suml_ext. intros c Ic.
    unfold poisson_terms. destruct (uses_linear o).
    + rewrite suml_map. apply (suml_combine (s_sub_p sp) (fun _ => 0%nat) (fun s sub => action cons (s_vertices sp) (fun k => g_p c (sub k)) (g_LP c s) x g)).
    + rewrite suml_app. cbn [suml]. rewrite action_term, Rplus_0_r, Rplus_comm. f_equal. destruct (o_augmented o); [|reflexivity].
      rewrite suml_flat_map. apply suml_ext. intros f _. cbn [suml]. unfold term_action. cbn [t_n t_m t_row t_col t_val sumn]. rewrite !Rplus_0_l, Rplus_0_r. f_equal.
      apply sumn_ext. intros i _. rewrite Rplus_0_l. reflexivity.
  - intros g h Hg Cg d. destruct (assembled_constrained _ _ _ _ _ _ HC HA g h Cg) as [X Y]. rewrite X, Y.
    assert (E : (if existsb (Nat.eqb g) ones then 1 else suml (flat_map (poisson_terms o sp) cells) (fun t => own_diagonal cons t g)) = d).
    { unfold d, ones. destruct (conp g) eqn:EP.
      - assert (existsb (Nat.eqb g) (filter (fun i => constrained cons i && negb (existsb (Nat.eqb i) (schur_complement_only n_p conp cons))) (seq 0 n_p)) = true) as ->; [|reflexivity].
        apply ones_spec. rewrite EP. repeat split; auto. congruence.
      - assert (existsb (Nat.eqb g) (filter (fun i => constrained cons i && negb (existsb (Nat.eqb i) (schur_complement_only n_p conp cons))) (seq 0 n_p)) = false) as ->.
        { apply not_true_iff_false. intros Z. apply ones_spec in Z as (_ & _ & Z). contradiction. }
        unfold magnitude. rewrite suml_flat_map. reflexivity. }
    rewrite E. auto.
Qed.
Print Assumptions C102_pressure.

(** ** C102: augmented elements.  Per inner face the operator of the pressure sees only jumps of the constants of the two cells: the test function
    "neighbor minus own" for the first part, the value "neighbor minus own" for the second. *)
Theorem C102_jumps : forall o sp con cells x g, o_augmented o = true -> (0 < s_dofs_p sp)%nat ->
  poisson_operator o sp con cells x g = suml cells (fun c =>
    let own := g_p c (s_dofs_p sp - 1)%nat in
    action con (s_dofs_p sp) (g_p c) (g_P c) x g +
    suml (g_faces c) (fun f =>
      (share con (f_neighbor f) g - share con own g) * sumn (s_dofs_p sp) (fun j => f_1 f j * value con x (g_p c j)) +
      sumn (s_dofs_p sp) (fun i => share con (g_p c i) g * f_2 f i) * (value con x (f_neighbor f) - value con x own))).
Proof.
  intros o sp con cells x g HA HP. unfold poisson_operator. apply suml_ext. intros c _.
  assert (UL : uses_linear o = false) by (unfold uses_linear; rewrite HA; destruct (o_velocity o); reflexivity).
  rewrite UL, HA. cbv zeta. set (n := s_dofs_p sp) in *. set (own := g_p c (n - 1)%nat).
  set (V := fun j => value con x (g_p c j)). set (H := fun i => share con (g_p c i) g).
  assert (LST : forall h : nat -> R, sumn n (fun i => if Nat.eqb (S i) n then h i else 0) = h (n - 1)%nat).
  { intros h. rewrite (sumn_delta n (n - 1)%nat); [|lia|].
    - replace (S (n - 1)) with n by lia. rewrite Nat.eqb_refl. reflexivity.
    - intros i Hi N. destruct (Nat.eqb_spec (S i) n); [lia|reflexivity]. }
  assert (E : action con n (g_p c) (pressure_matrix sp o c) x g = action con n (g_p c) (g_P c) x g
    - H (n - 1)%nat * suml (g_faces c) (fun f => sumn n (fun j => f_1 f j * V j))
    - suml (g_faces c) (fun f => sumn n (fun i => H i * f_2 f i)) * V (n - 1)%nat).
  { unfold action. fold H. fold V.
    transitivity (sumn n (fun a => H a * sumn n (fun b => g_P c a b * V b)
       - (if Nat.eqb (S a) n then H a * suml (g_faces c) (fun f => sumn n (fun j => f_1 f j * V j)) else 0)
       - H a * suml (g_faces c) (fun f => f_2 f a) * V (n - 1)%nat)).
    - apply sumn_ext. intros a _. fold (H a).
      transitivity (H a * (sumn n (fun b => g_P c a b * V b) - (if Nat.eqb (S a) n then suml (g_faces c) (fun f => sumn n (fun j => f_1 f j * V j)) else 0)
        - suml (g_faces c) (fun f => f_2 f a) * V (n - 1)%nat)); [|destruct (Nat.eqb (S a) n); ring].
      f_equal. unfold pressure_matrix. rewrite HA. fold n.
      rewrite (sumn_ext n _ (fun b => g_P c a b * V b - (if Nat.eqb (S a) n then suml (g_faces c) (fun f => f_1 f b) * V b else 0) - (if Nat.eqb (S b) n then suml (g_faces c) (fun f => f_2 f a) * V b else 0)))
        by (intros b _; fold (V b); destruct (Nat.eqb (S a) n), (Nat.eqb (S b) n); ring).
      rewrite !sumn_minus. rewrite (LST (fun b => suml (g_faces c) (fun f => f_2 f a) * V b)). f_equal. f_equal.
      destruct (Nat.eqb (S a) n); [|apply sumn_0]. rewrite suml_sumn. apply sumn_ext. intros j _. rewrite Rmult_comm, <- suml_scal. apply suml_ext. intros; ring.
    - rewrite !sumn_minus. rewrite (LST (fun a => H a * suml (g_faces c) (fun f => sumn n (fun j => f_1 f j * V j)))). f_equal.
      rewrite (sumn_ext n _ (fun a => suml (g_faces c) (fun f => H a * f_2 f a) * V (n - 1)%nat)) by (intros a _; rewrite suml_scal; reflexivity).
      rewrite sumn_scal_r. f_equal. symmetry. apply suml_sumn. }
  rewrite E. change (value con x own) with (V (n - 1)%nat). change (share con own g) with (H (n - 1)%nat).
  rewrite (suml_ext (g_faces c) (fun f => share con (f_neighbor f) g * sumn n (fun j => f_1 f j * value con x (g_p c j)) + sumn n (fun i => share con (g_p c i) g * (f_2 f i * value con x (f_neighbor f))))
    (fun f => share con (f_neighbor f) g * sumn n (fun j => f_1 f j * V j) + sumn n (fun i => H i * f_2 f i) * value con x (f_neighbor f))).
  2:{ intros f _. f_equal. rewrite <- sumn_scal_r. apply sumn_ext. intros i _. unfold H. ring. }
  rewrite (suml_ext (g_faces c) (fun f => (share con (f_neighbor f) g - H (n - 1)%nat) * sumn n (fun j => f_1 f j * value con x (g_p c j)) + sumn n (fun i => share con (g_p c i) g * f_2 f i) * (value con x (f_neighbor f) - V (n - 1)%nat))
    (fun f => (share con (f_neighbor f) g * sumn n (fun j => f_1 f j * V j) + sumn n (fun i => H i * f_2 f i) * value con x (f_neighbor f)) - (H (n - 1)%nat * sumn n (fun j => f_1 f j * V j) + V (n - 1)%nat * sumn n (fun i => H i * f_2 f i)))) by (intros f _; unfold V, H; ring).
  rewrite suml_minus, !suml_plus, !suml_scal. ring.
Qed.
Print Assumptions C102_jumps.
(** The initial Stokes solve leaves the Poisson matrix of the setup alone and fills the mass matrix on linear sub-elements if that is used. *)
Theorem C102_initial_stokes : forall o sp conp cons n_p pats cells old,
  assemble_p (initial_stokes o) sp conp cons n_p pats cells old = Some old /\
  o_velocity (initial_stokes o) = u_amg_linear /\ o_augmented (initial_stokes o) = o_augmented o /\ o_mass_ilu (initial_stokes o) = o_mass_ilu o.
Proof. intros. repeat split; reflexivity. Qed.
Print Assumptions C102_initial_stokes.

(** ** C102: the pressure mass matrix.  On free unknowns it is the operator of the cell matrices, on linear sub-elements when these are used for
    the pressure; a constrained unknown is decoupled and keeps the sum of the absolute values of its local diagonal entries (of the average
    of the cell where that is zero). *)
Definition replacement (n : nat) (A : nat -> nat -> R) (a : nat) : R :=
  if Req_EM_T (A a a) 0 then sumn n (fun b => Rabs (A b b)) / INR n else Rabs (A a a).
Definition local_diagonal (n : nat) (dof : nat -> nat) (A : nat -> nat -> R) (g : nat) : R :=
  sumn n (fun a => if Nat.eqb (dof a) g then replacement n A a else 0).
Lemma new_diagonal_eq t a : new_diagonal t a = replacement (t_n t) (t_val t) a.
Proof.
  unfold new_diagonal, replacement, average_diagonal, Rneqb. destruct (Req_EM_T (t_val t a a) 0) as [E|E].
  - rewrite E, Rabs_R0. destruct (Req_EM_T 0 0); [reflexivity|lra].
  - destruct (Req_EM_T (Rabs (t_val t a a)) 0) as [Z|Z]; [|reflexivity]. apply Rabs_no_R0 in E. contradiction.
Qed.
Theorem C102_mass : forall o sp cons n_p pats cells old M,
  sub_elements (s_dofs_p sp) (s_vertices sp) (s_sub_p sp) -> closed cons -> unknowns cons n_p (s_dofs_p sp) g_p cells ->
  o_mass_ilu o || o_augmented o = true -> assemble_mass o sp cons pats cells old = Some M ->
  let linear := match o_velocity o, o_augmented o with u_amg_linear, false => true | _, _ => false end in
  let over (f : gcell -> nat -> (nat -> nat) -> (nat -> nat -> R) -> R) := suml cells (fun c =>
    if linear then sumn (length (s_sub_p sp)) (fun s => f c (s_vertices sp) (fun k => g_p c (nth s (s_sub_p sp) (fun _ => 0%nat) k)) (g_LM c s))
    else f c (s_dofs_p sp) (g_p c) (g_M c)) in
  (forall x g, cons g = None -> sumn n_p (fun h => M g h * x h) = over (fun c n dof A => action cons n dof A x g)) /\
  (forall g h, (g < n_p)%nat -> cons g <> None ->
     let d := over (fun c n dof A => local_diagonal n dof A g) in
     M g h = (if Nat.eqb g h then d else 0) /\ M h g = (if Nat.eqb g h then d else 0)).
Proof.
  intros o sp cons n_p pats cells old M HS HC (U1 & U2 & U3) HX HA linear over. unfold assemble_mass in HA. rewrite HX in HA. destruct (pat_mass pats) as [pat|]; [|discriminate].
  assert (UL : uses_linear o = linear) by (unfold uses_linear, linear; destruct (o_velocity o), (o_augmented o); reflexivity).
  assert (MI : linear = true -> o_mass_ilu o = true).
  { intros L. unfold linear in L. destruct (o_velocity o), (o_augmented o); try discriminate. rewrite orb_false_r in HX. exact HX. }
  assert (HB : forall t, In t (flat_map (mass_terms o sp) cells) -> term_below n_p cons t).
  { intros t It. apply in_flat_map in It as (c & Ic & It). unfold mass_terms in It. rewrite UL, HX in It. destruct HS as [HS1 _]. destruct linear.
    - rewrite (MI eq_refl) in It. apply in_map_iff in It as ([s sub] & <- & Is). apply in_combine_r in Is. split; cbn; intros a Ha; apply U1; auto.
    - destruct It as [<-|[]]. split; cbn; intros a Ha; apply U1; auto. }
  change (fold_left (set_one pat) [] (add_terms pat cons (flat_map (mass_terms o sp) cells) old) = Some M) in HA.
  assert (HO : forall i : nat, In i [] -> cons i <> None) by (intros i []). split.
  - intros x g Hg. rewrite (assembled_free _ _ _ _ _ _ _ U3 HB HO HA x g Hg). rewrite suml_flat_map. apply suml_ext. intros c Ic.
    unfold mass_terms. rewrite UL, HX. destruct linear.
    + rewrite (MI eq_refl), suml_map. apply (suml_combine (s_sub_p sp) (fun _ => 0%nat) (fun s sub => action cons (s_vertices sp) (fun k => g_p c (sub k)) (g_LM c s) x g)).
    + cbn [suml]. rewrite action_term, Rplus_0_r. reflexivity.
  - intros g h Hg Cg d. destruct (assembled_constrained _ _ _ _ _ _ HC HA g h Cg) as [X Y]. rewrite X, Y. cbn [existsb].
    assert (E : suml (flat_map (mass_terms o sp) cells) (fun t => own_diagonal cons t g) = d); [|rewrite E; auto].
    unfold d, over. rewrite suml_flat_map. apply suml_ext. intros c Ic.
    assert (OD : forall n dof A, own_diagonal cons (MkTerm n dof n dof A true) g = local_diagonal n dof A g).
    { intros n dof A. unfold own_diagonal, local_diagonal. cbn [t_diag t_n t_row]. apply sumn_ext. intros a _. rewrite new_diagonal_eq. reflexivity. }
    unfold mass_terms. rewrite UL, HX. destruct linear.
    + rewrite (MI eq_refl), suml_map.
      rewrite <- (suml_combine (s_sub_p sp) (fun _ => 0%nat) (fun s sub => local_diagonal (s_vertices sp) (fun k => g_p c (sub k)) (g_LM c s) g)).
      apply suml_ext. intros [s sub] _. apply OD.
    + cbn [suml]. rewrite OD, Rplus_0_r. reflexivity.
Qed.
Print Assumptions C102_mass.

(** ** C102: with and without matrix *)
Lemma schur_closed conp extra : closed conp -> closed (schur_constraints conp extra).
Proof.
  intros HC h l m w. unfold schur_constraints. destruct (conp h) as [l0|] eqn:E.
  - intros H I. injection H as <-. apply filter_In in I as [I F]. pose proof (HC h l0 m w E I) as Z. cbn [fst] in F. rewrite Z in F |- *. destruct (extra m); [discriminate|reflexivity].
  - destruct (extra h); [|discriminate]. intros H I. injection H as <-. destruct I.
Qed.
Lemma suml_filter {A} (P : A -> bool) l f : suml (filter P l) f = suml l (fun x => if P x then f x else 0).
Proof. induction l as [|x l IH]; cbn; [reflexivity|]. destruct (P x); cbn; rewrite IH; ring. Qed.
Section Schur.
Context (conp : constraints) (extra : nat -> bool) (n_p : nat) (HC : closed conp) (HM : forall h l mw, conp h = Some l -> In mw l -> (fst mw < n_p)%nat).
Let cons := schur_constraints conp extra.
Let only := schur_complement_only n_p conp cons.
Lemma only_extra i : In i only <-> (i < n_p)%nat /\ conp i = None /\ extra i = true.
Proof.
  unfold only. rewrite only_spec. unfold cons, schur_constraints. split.
  - intros (H1 & H2 & H3). rewrite H3 in H2. destruct (extra i); [auto|congruence].
  - intros (H1 & H2 & H3). rewrite H2, H3. repeat split; auto. congruence.
Qed.
Lemma value_schur x h : (h < n_p)%nat -> value cons x h = value conp (fun i => if in_dec Nat.eq_dec i only then 0 else x i) h.
Proof.
  intros Hh. unfold value, expand, cons, schur_constraints. destruct (conp h) as [l|] eqn:E.
  - rewrite suml_filter. apply suml_ext. intros [m w] I. cbn [fst snd]. pose proof (HC h l m w E I) as Z. pose proof (HM h l (m, w) E I) as B. cbn in B. rewrite Z.
    destruct (in_dec Nat.eq_dec m only) as [J|J].
    + apply only_extra in J as (_ & _ & ->). cbn. ring.
    + destruct (extra m) eqn:X; cbn; [|ring]. exfalso. apply J. apply only_extra. auto.
  - destruct (in_dec Nat.eq_dec h only) as [J|J].
    + destruct (proj1 (only_extra h) J) as (_ & _ & X). rewrite X. cbn. destruct (in_dec Nat.eq_dec h only); [ring|contradiction].
    + destruct (extra h) eqn:X; [exfalso; apply J; apply only_extra; auto|]. cbn. destruct (in_dec Nat.eq_dec h only); [contradiction|ring].
Qed.
Lemma share_schur h g : cons g = None -> share cons h g = share conp h g.
Proof.
  intros Hg. unfold share, expand, cons, schur_constraints. unfold cons, schur_constraints in Hg. destruct (conp g) eqn:Eg; [discriminate|]. destruct (extra g) eqn:Xg; [discriminate|].
  destruct (conp h) as [l|] eqn:E.
  - rewrite suml_filter. apply suml_ext. intros [m w] I. cbn [fst snd]. destruct (Nat.eqb_spec m g) as [->|]; [rewrite Xg; reflexivity|destruct (negb _); reflexivity].
  - destruct (extra h) eqn:X; [|reflexivity]. cbn. destruct (Nat.eqb_spec h g); [congruence|ring].
Qed.
End Schur.
(** For every vector, the assembled Poisson matrix and the wrapper that applies the operator without matrix give the same result: on free unknowns,
    on constrained ones (hanging nodes, also with masters on an open boundary), and on the unknowns that are constrained only in the
    Schur complement. *)
Theorem C102_same_with_and_without_matrix : forall o sp conp extra n_p pats cells old M x sparse,
  sub_elements (s_dofs_p sp) (s_vertices sp) (s_sub_p sp) -> closed conp -> unknowns conp n_p (s_dofs_p sp) g_p cells ->
  (forall c f, In c cells -> In f (g_faces c) -> (f_neighbor f < n_p)%nat) ->
  o_density o = true -> o_augmented o = false -> o_velocity o <> u_amg_linear ->
  let cons := schur_constraints conp extra in
  assemble_p o sp conp cons n_p pats cells old = Some M ->
  let only := schur_complement_only n_p conp cons in
  forall g, (g < n_p)%nat ->
  sumn n_p (fun h => M g h * x h) =
  snd (poisson_vmult false sparse (pressure_poisson_vmult sp conp cells) only (map (fun i => M i i) only) x) g.
Proof.
  intros o sp conp extra n_p pats cells old M x sparse HS HC HU HF HD HAu HV cons HA only g Hg.
  assert (HC' : closed cons) by (apply schur_closed; exact HC).
  assert (HU' : unknowns cons n_p (s_dofs_p sp) g_p cells).
  { destruct HU as (U1 & U2 & U3). split; [exact U1|]. split; [exact U2|]. intros h l mw. unfold cons, schur_constraints. destruct (conp h) as [l0|] eqn:E.
    - intros H I. injection H as <-. apply filter_In in I as [I _]. exact (U3 h l0 mw E I).
    - destruct (extra h); [|discriminate]. intros H I. injection H as <-. destruct I. }
  destruct (C102_pressure o sp conp cons n_p pats cells old M HS HC' HU' HF HD HA) as [FR CO].
  assert (ND : NoDup only) by (apply NoDup_filter, seq_NoDup).
  destruct (C29_poisson_wrapper false sparse (pressure_poisson_vmult sp conp cells) only (map (fun i => M i i) only) x ND (map_length _ _)) as (_ & _ & W).
  destruct (W eq_refl) as [W1 W2]. clear W.
  assert (ROW : cons g <> None -> sumn n_p (fun h => M g h * x h) = M g g * x g).
  { intros Cg. rewrite (sumn_delta _ g); auto. intros h _ N. destruct (CO g h Hg Cg) as [-> _]. destruct (Nat.eqb_spec g h); [congruence|ring]. }
  destruct (in_dec Nat.eq_dec g only) as [I|I].
  - destruct (In_nth only g 0%nat I) as (k & Hk & Ek). pose proof (W2 k Hk) as W3. rewrite Ek in W3. rewrite W3.
    rewrite (nth_indep _ 0 (M 0%nat 0%nat)) by (rewrite map_length; exact Hk). rewrite (map_nth (fun i => M i i)), Ek. apply ROW.
    apply only_spec in I. tauto.
  - rewrite W1 by exact I. unfold pressure_poisson_vmult, constrained. destruct (conp g) as [l|] eqn:Eg.
    + assert (Cg : cons g <> None) by (unfold cons, schur_constraints; rewrite Eg; discriminate).
      rewrite ROW by exact Cg. destruct (CO g g Hg Cg) as [-> _]. rewrite Nat.eqb_refl, Eg. destruct (in_dec Nat.eq_dec g only); [contradiction|ring].
    + assert (Cg : cons g = None).
      { destruct (cons g) eqn:Z; [|reflexivity]. exfalso. apply I. apply only_spec. rewrite Z. repeat split; auto. discriminate. }
      rewrite (FR x g Cg). unfold poisson_operator. apply suml_ext. intros c Ic.
      assert (uses_linear o = false) as -> by (unfold uses_linear; destruct (o_velocity o); auto; contradiction).
      rewrite HAu, Rplus_0_r. unfold action. apply sumn_ext. intros a Ha. pose proof (share_schur conp extra (g_p c a) g Cg) as SH. change (schur_constraints conp extra) with cons in SH. rewrite SH. unfold share. rewrite <- Properties_InteriorPenalty.suml_scal_r.
      apply suml_ext. intros [m w] _. cbn [fst snd]. destruct (Nat.eqb m g); [|ring]. f_equal. apply sumn_ext. intros b Hb. unfold pressure_matrix. rewrite HAu. f_equal.
      destruct HU as (U1 & U2 & U3). apply (value_schur conp extra n_p HC U3 x). apply U1; auto.
Qed.
Print Assumptions C102_same_with_and_without_matrix.

(** ** C102: definiteness *)
Lemma share_constrained con h g : closed con -> con g <> None -> share con h g = 0.
Proof.
  intros HC Cg. apply suml_zero. intros [m w] I. cbn. destruct (Nat.eqb_spec m g) as [->|]; [|reflexivity]. apply (expand_free con h g w HC) in I. contradiction.
Qed.
Lemma value_share con n x h : (forall m w, In (m, w) (expand con h) -> (m < n)%nat) -> sumn n (fun g => x g * share con h g) = value con x h.
Proof.
  unfold share, value. induction (expand con h) as [|[m w] l IH]; intros B; cbn [suml].
  - apply sumn_zero. intros; ring.
  - rewrite <- IH by (intros; eapply B; right; eauto). cbn [fst snd].
    rewrite (sumn_ext _ _ (fun g => (if Nat.eqb m g then w * x g else 0) + x g * suml l (fun mw => if Nat.eqb (fst mw) g then snd mw else 0))).
    2:{ intros g _. destruct (Nat.eqb m g); ring. }
    rewrite sumn_plus. f_equal. rewrite (sumn_delta _ m); [rewrite Nat.eqb_refl; reflexivity|exact (B m w (or_introl eq_refl))|].
    intros g _ N. destruct (Nat.eqb_spec m g); [congruence|reflexivity].
Qed.
Lemma new_diagonal_nonneg t a : 0 <= new_diagonal t a.
Proof.
  unfold new_diagonal. destruct (Rneqb _ _); [apply Rabs_pos|]. unfold average_diagonal. destruct (t_n t) as [|n]; [cbn; unfold Rdiv; rewrite Rmult_0_l; lra|].
  apply Rmult_le_pos; [apply sumn_nonneg; intros; apply Rabs_pos|]. left. apply Rinv_0_lt_compat. apply lt_0_INR. lia.
Qed.
Lemma magnitude_nonneg o sp cells g : 0 <= magnitude o sp cells g.
Proof.
  unfold magnitude. apply suml_nonneg. intros c _. apply suml_nonneg. intros t _. destruct (t_diag t); [|lra]. apply sumn_nonneg. intros a _. destruct (Nat.eqb _ g); [apply new_diagonal_nonneg|lra].
Qed.
(** The bilinear form of the Poisson matrix (elements that are not augmented) is the sum of the forms of the cells for the functions that satisfy
    the constraints, plus a nonnegative diagonal on the constrained unknowns.  So it is symmetric and positive semidefinite when the cell matrices
    are, which C82 proves for every density and time step. *)
Theorem C102_symmetric_positive : forall o sp conp cons n_p pats cells old M,
  sub_elements (s_dofs_p sp) (s_vertices sp) (s_sub_p sp) -> closed cons -> unknowns cons n_p (s_dofs_p sp) g_p cells ->
  (forall c f, In c cells -> In f (g_faces c) -> (f_neighbor f < n_p)%nat) ->
  o_density o = true -> o_augmented o = false -> o_velocity o <> u_amg_linear ->
  assemble_p o sp conp cons n_p pats cells old = Some M ->
  (forall x y, sumn n_p (fun r => x r * sumn n_p (fun c => M r c * y c)) =
     suml cells (fun c => sumn (s_dofs_p sp) (fun i => sumn (s_dofs_p sp) (fun j => g_P c i j * value cons x (g_p c i) * value cons y (g_p c j)))) +
     sumn n_p (fun g => match cons g with Some _ => M g g * x g * y g | None => 0 end)) /\
  (forall g, (g < n_p)%nat -> cons g <> None -> 0 <= M g g) /\
  ((forall c i j, In c cells -> (i < s_dofs_p sp)%nat -> (j < s_dofs_p sp)%nat -> g_P c i j = g_P c j i) ->
     forall r c, (r < n_p)%nat -> (c < n_p)%nat -> M r c = M c r) /\
  ((forall c v, In c cells -> 0 <= sumn (s_dofs_p sp) (fun i => sumn (s_dofs_p sp) (fun j => g_P c i j * v i * v j))) ->
     forall x, 0 <= sumn n_p (fun r => x r * sumn n_p (fun c => M r c * x c))).
Proof.
  intros o sp conp cons n_p pats cells old M HS HC HU HF HD HAu HV HA.
  destruct (C102_pressure o sp conp cons n_p pats cells old M HS HC HU HF HD HA) as [FR CO].
  assert (UL : uses_linear o = false) by (unfold uses_linear; destruct (o_velocity o); auto; contradiction).
  destruct HU as (U1 & U2 & U3).
  assert (EB : forall h, (h < n_p)%nat -> forall m w, In (m, w) (expand cons h) -> (m < n_p)%nat).
  { intros h Hh m w. unfold expand. destruct (cons h) eqn:E; intros Y; [exact (U3 _ _ _ E Y)|]. destruct Y as [Y|[]]. injection Y as <- _. exact Hh. }
  assert (DN : forall g, (g < n_p)%nat -> cons g <> None -> 0 <= M g g).
  { intros g Hg Cg. destruct (CO g g Hg Cg) as [-> _]. rewrite Nat.eqb_refl. destruct (conp g); [lra|apply magnitude_nonneg]. }
  assert (FORM : forall x y, sumn n_p (fun r => x r * sumn n_p (fun c => M r c * y c)) =
     suml cells (fun c => sumn (s_dofs_p sp) (fun i => sumn (s_dofs_p sp) (fun j => g_P c i j * value cons x (g_p c i) * value cons y (g_p c j)))) +
     sumn n_p (fun g => match cons g with Some _ => M g g * x g * y g | None => 0 end)).
  { intros x y.
    transitivity (sumn n_p (fun g => x g * suml cells (fun c => action cons (s_dofs_p sp) (g_p c) (g_P c) y g) + match cons g with Some _ => M g g * x g * y g | None => 0 end)).
    - apply sumn_ext. intros g Hg. destruct (cons g) as [l|] eqn:E.
      + assert (Cg : cons g <> None) by congruence. rewrite (sumn_delta _ g); [|exact Hg|].
        * rewrite suml_zero; [ring|]. intros c _. unfold action. apply sumn_zero. intros a _. rewrite share_constrained by auto. ring.
        * intros h _ N. destruct (CO g h Hg Cg) as [-> _]. destruct (Nat.eqb_spec g h); [congruence|ring].
      + rewrite (FR y g E). unfold poisson_operator. rewrite Rplus_0_r. f_equal. apply suml_ext. intros c _. rewrite UL, HAu, Rplus_0_r.
        apply action_ext; [reflexivity|]. intros a b _ _. unfold pressure_matrix. rewrite HAu. reflexivity.
    - rewrite sumn_plus. f_equal. rewrite (sumn_ext _ _ (fun g => suml cells (fun c => x g * action cons (s_dofs_p sp) (g_p c) (g_P c) y g))) by (intros; rewrite suml_scal; reflexivity).
      rewrite <- suml_sumn. apply suml_ext. intros c Ic. unfold action.
      rewrite (sumn_ext _ _ (fun g => sumn (s_dofs_p sp) (fun a => x g * share cons (g_p c a) g * sumn (s_dofs_p sp) (fun b => g_P c a b * value cons y (g_p c b))))).
      2:{ intros g _. rewrite <- sumn_scal. apply sumn_ext. intros; ring. }
      rewrite sumn_swap. apply sumn_ext. intros a Ha. rewrite sumn_scal_r, value_share; [|apply EB, U1; auto]. rewrite <- sumn_scal. apply sumn_ext. intros; ring. }
  split; [exact FORM|]. split; [exact DN|]. split.
  - intros SY r c Hr Hc.
    assert (PK : forall r c, (r < n_p)%nat -> (c < n_p)%nat -> M r c = sumn n_p (fun u => unit_vec r u * sumn n_p (fun v => M u v * unit_vec c v))).
    { intros u v Hu Hv. unfold unit_vec. rewrite (sumn_delta _ u); [|exact Hu|intros i _ N; destruct (Nat.eqb_spec i u); [contradiction|ring]].
      rewrite Nat.eqb_refl, (sumn_delta _ v); [rewrite Nat.eqb_refl; ring|exact Hv|]. intros i _ N; destruct (Nat.eqb_spec i v); [contradiction|ring]. }
    rewrite (PK r c), (PK c r), !FORM by auto. f_equal.
    + apply suml_ext. intros e Ie. rewrite sumn_swap. apply sumn_ext. intros i Hi. apply sumn_ext. intros j Hj. rewrite (SY e j i) by auto. ring.
    + apply sumn_ext. intros g _. destruct (cons g); ring.
  - intros PO x. rewrite FORM. apply Rplus_le_le_0_compat.
    + apply suml_nonneg. intros c Ic. apply (PO c (fun i => value cons x (g_p c i)) Ic).
    + apply sumn_nonneg. intros g Hg. destruct (cons g) eqn:E; [|lra]. assert (0 <= M g g) by (apply DN; [exact Hg|congruence]). replace (M g g * x g * x g) with (M g g * (x g * x g)) by ring.
      apply Rmult_le_pos; [assumption|apply Rle_0_sqr].
Qed.
Print Assumptions C102_symmetric_positive.

(** An unknown constrained only in the Schur complement keeps the magnitude it has in the matrix without this constraint. *)
Theorem C102_magnitude : forall o sp conp extra n_p pats cells old M M0 g,
  sub_elements (s_dofs_p sp) (s_vertices sp) (s_sub_p sp) -> closed conp -> unknowns conp n_p (s_dofs_p sp) g_p cells ->
  o_density o = true -> o_augmented o = false -> o_velocity o <> u_amg_linear ->
  (forall c a b, In c cells -> (a < s_dofs_p sp)%nat -> (b < s_dofs_p sp)%nat -> g_p c a = g_p c b -> a = b) ->
  (forall c a, In c cells -> (a < s_dofs_p sp)%nat -> g_p c a = g -> 0 < g_P c a a) ->
  (forall h l w, conp h = Some l -> ~ In (g, w) l) -> (g < n_p)%nat -> conp g = None -> extra g = true ->
  (forall c f, In c cells -> In f (g_faces c) -> (f_neighbor f < n_p)%nat) ->
  assemble_p o sp conp (schur_constraints conp extra) n_p pats cells old = Some M ->
  assemble_p o sp conp conp n_p pats cells old = Some M0 ->
  M g g = M0 g g /\ 0 < M g g.
Proof.
  intros o sp conp extra n_p pats cells old M M0 g HS HC HU HD HAu HV HI HP HM Hg Cp Xg HF HA HA0.
  assert (UL : uses_linear o = false) by (unfold uses_linear; destruct (o_velocity o); auto; contradiction).
  set (cons := schur_constraints conp extra) in *.
  assert (HU' : unknowns cons n_p (s_dofs_p sp) g_p cells).
  { destruct HU as (U1 & U2 & U3). split; [exact U1|]. split; [exact U2|]. intros h l mw. unfold cons, schur_constraints. destruct (conp h) as [l0|] eqn:E.
    - intros H I. injection H as <-. apply filter_In in I as [I _]. exact (U3 h l0 mw E I).
    - destruct (extra h); [|discriminate]. intros H I. injection H as <-. destruct I. }
  destruct (C102_pressure o sp conp cons n_p pats cells old M HS (schur_closed _ _ HC) HU' HF HD HA) as [_ CO].
  destruct (C102_pressure o sp conp conp n_p pats cells old M0 HS HC HU HF HD HA0) as [FR _].
  assert (Cg : cons g <> None) by (unfold cons, schur_constraints; rewrite Cp, Xg; discriminate).
  destruct (CO g g Hg Cg) as [-> _]. rewrite Nat.eqb_refl, Cp.
  assert (MAG : magnitude o sp cells g = suml cells (fun c => sumn (s_dofs_p sp) (fun a => if Nat.eqb (g_p c a) g then g_P c a a else 0))).
  { unfold magnitude. apply suml_ext. intros c Ic. unfold poisson_terms. rewrite UL, HAu. cbn [app suml t_diag t_n t_row]. rewrite Rplus_0_r.
    apply sumn_ext. intros a Ha. destruct (Nat.eqb_spec (g_p c a) g) as [E|]; [|reflexivity]. pose proof (HP c a Ic Ha E) as P.
    unfold new_diagonal. cbn [t_val]. unfold pressure_matrix. rewrite HAu. rewrite Rabs_pos_eq by lra.
    destruct (Rneqb (g_P c a a) 0) eqn:Z; [reflexivity|]. unfold Rneqb in Z. destruct (Req_EM_T _ 0); [lra|discriminate]. }
  assert (E0 : M0 g g = suml cells (fun c => sumn (s_dofs_p sp) (fun a => if Nat.eqb (g_p c a) g then g_P c a a else 0))).
  { transitivity (sumn n_p (fun h => M0 g h * unit_vec g h)).
    { unfold unit_vec. rewrite (sumn_delta _ g); [rewrite Nat.eqb_refl; ring|exact Hg|]. intros h _ N. destruct (Nat.eqb_spec h g); [contradiction|ring]. }
    rewrite (FR _ g Cp). unfold poisson_operator. apply suml_ext. intros c Ic. rewrite UL, HAu, Rplus_0_r. unfold action.
    assert (SH : forall h, share conp h g = if Nat.eqb h g then 1 else 0).
    { intros h. unfold share, expand. destruct (conp h) as [l|] eqn:E.
      - destruct (Nat.eqb_spec h g) as [->|]; [congruence|]. apply suml_zero. intros [m w] I. cbn. destruct (Nat.eqb_spec m g) as [->|]; [|reflexivity]. exfalso. exact (HM h l w E I).
      - cbn. destruct (Nat.eqb h g); ring. }
    assert (VA : forall h, value conp (unit_vec g) h = if Nat.eqb h g then 1 else 0).
    { intros h. unfold value, expand, unit_vec. destruct (conp h) as [l|] eqn:E.
      - destruct (Nat.eqb_spec h g) as [->|]; [congruence|]. apply suml_zero. intros [m w] I. cbn. destruct (Nat.eqb_spec m g) as [->|]; [|ring]. exfalso. exact (HM h l w E I).
      - cbn. destruct (Nat.eqb h g); ring. }
    apply sumn_ext. intros a Ha. rewrite SH. destruct (Nat.eqb_spec (g_p c a) g) as [E|]; [|ring]. rewrite Rmult_1_l. rewrite (sumn_delta _ a); [|exact Ha|].
    - rewrite VA, E, Nat.eqb_refl. unfold pressure_matrix. rewrite HAu. ring.
    - intros b Hb N. rewrite VA. destruct (Nat.eqb_spec (g_p c b) g) as [E'|]; [|ring]. exfalso. apply N. apply (HI c b a); auto. congruence. }
  split; [rewrite MAG, E0; reflexivity|]. rewrite MAG.
  destruct HU as (_ & U2 & _). destruct (U2 g Hg) as (c & k & Ic & Hk & Ek).
  assert (NN : forall c, In c cells -> 0 <= sumn (s_dofs_p sp) (fun a => if Nat.eqb (g_p c a) g then g_P c a a else 0)).
  { intros e Ie. apply sumn_nonneg. intros a Ha. destruct (Nat.eqb_spec (g_p e a) g) as [E|]; [left; apply HP; auto|lra]. }
  destruct (Rle_lt_or_eq_dec 0 _ (suml_nonneg cells _ NN)) as [L|Z]; [exact L|exfalso].
  pose proof (suml_nonneg_zero cells _ NN (eq_sym Z) c Ic) as Z1. cbn beta in Z1.
  assert (Z2 := sumn_nonneg_zero (s_dofs_p sp) (fun a => if Nat.eqb (g_p c a) g then g_P c a a else 0)
     ltac:(intros a Ha; cbn beta; destruct (Nat.eqb_spec (g_p c a) g) as [E|]; [left; apply HP; auto|lra]) Z1 k Hk). cbn beta in Z2.
  rewrite Ek, Nat.eqb_refl in Z2. pose proof (HP c k Ic Hk Ek). lra.
Qed.
Print Assumptions C102_magnitude.

(** ** C102: nothing is left from before, and the order of the cells does not matter *)
Lemma add_terms_perm pat con terms terms' old old' M M' : Permutation terms terms' ->
  add_terms pat con terms old = Some M -> add_terms pat con terms' old' = Some M' -> forall r c, M r c = M' r c.
Proof.
  intros P H H' r c. apply add_terms_some in H as [H _]. apply add_terms_some in H' as [H' _]. rewrite H, H'. apply Properties_InteriorPenalty.suml_perm. exact P.
Qed.
Theorem C102_order_and_history : forall o sp conu conscalar conp cons n_u n_p pats cells cells' old old',
  Permutation cells cells' ->
  (forall M M', assemble_u o sp conu conscalar n_u pats cells old = Some M -> assemble_u o sp conu conscalar n_u pats cells' old' = Some M' -> forall r c, M r c = M' r c) /\
  (o_density o = true -> forall M M', assemble_p o sp conp cons n_p pats cells old = Some M -> assemble_p o sp conp cons n_p pats cells' old' = Some M' -> forall r c, M r c = M' r c) /\
  (o_mass_ilu o || o_augmented o = true -> forall M M', assemble_mass o sp cons pats cells old = Some M -> assemble_mass o sp cons pats cells' old' = Some M' -> forall r c, M r c = M' r c).
Proof.
  intros o sp conu conscalar conp cons n_u n_p pats cells cells' old old' P.
  assert (SP : forall f : gcell -> list term, Permutation (flat_map f cells) (flat_map f cells')) by (intros f; apply Permutation_flat_map; exact P).
  assert (SET : forall pat ones con terms terms' M M', Permutation terms terms' ->
     fold_left (set_one pat) ones (add_terms pat con terms old) = Some M -> fold_left (set_one pat) ones (add_terms pat con terms' old') = Some M' -> forall r c, M r c = M' r c).
  { intros pat ones con terms terms' M M' PT H H' r c. destruct (add_terms pat con terms old) as [A|] eqn:E; [|rewrite set_none in H; discriminate].
    destruct (add_terms pat con terms' old') as [A'|] eqn:E'; [|rewrite set_none in H'; discriminate].
    rewrite (sets_some _ _ _ _ H), (sets_some _ _ _ _ H'), (add_terms_perm _ _ _ _ _ _ _ _ PT E E' r c). reflexivity. }
  split; [|split].
  - intros M M'. unfold assemble_u. apply SET. apply SP.
  - intros D M M'. unfold assemble_p. rewrite D. destruct (pat_p pats); [|discriminate]. apply SET. apply SP.
  - intros D M M'. unfold assemble_mass. rewrite D. destruct (pat_mass pats); [|discriminate]. apply add_terms_perm. apply SP.
Qed.
Print Assumptions C102_order_and_history.

(** ** C102: where it fails *)
(** The initial Stokes solve after a setup for the scalar matrix: as soon as a sub-element has a nonzero entry in a row beyond the scalar unknowns,
    the assembly stops with an exception. *)
Theorem C102_violation_initial_stokes : forall o0 sp conu conscalar cons n_u n_scalar cells old c s d a b g,
  o_velocity o0 = u_ilu_scalar -> unknowns conscalar n_scalar (s_dofs sp) g_scalar cells ->
  In c cells -> (s < length (s_sub_u sp))%nat -> (d < s_dim sp)%nat -> (a < s_vertices sp)%nat -> (b < s_vertices sp)%nat ->
  g = g_u c (s_lo sp d (nth s (s_sub_u sp) (fun _ => 0%nat) a)) -> (n_scalar <= g)%nat -> conu g = None ->
  conu (g_u c (s_lo sp d (nth s (s_sub_u sp) (fun _ => 0%nat) b))) = None -> g_L c s d a b <> 0 ->
  assemble_u (initial_stokes o0) sp conu conscalar n_u (initialize_matrices o0 sp conu conscalar cons cells) cells old = None.
Proof.
  intros o0 sp conu conscalar cons n_u n_scalar cells old c s d a b g HO (U1 & _ & U3) Ic Hs Hd Ha Hb Eg Hg Cg Cb HL.
  unfold assemble_u. cbn [initial_stokes o_velocity velocity_constraints].
  destruct (add_terms _ conu _ old) as [M0|] eqn:E; [exfalso|apply set_none].
  apply add_terms_some in E as [_ AL]. set (sub := nth s (s_sub_u sp) (fun _ => 0%nat)) in *.
  assert (IT : In (MkTerm (s_vertices sp) (fun k => g_u c (s_lo sp d (sub k))) (s_vertices sp) (fun k => g_u c (s_lo sp d (sub k))) (g_L c s d) true)
     (flat_map (velocity_terms u_amg_linear sp) cells)).
  { apply in_flat_map. exists c. split; [exact Ic|]. cbn [velocity_terms]. apply in_flat_map. exists (s, sub). split; [|apply in_map_iff; exists d; split; [reflexivity|apply in_seq; lia]].
    assert (NC : nth s (combine (seq 0 (length (s_sub_u sp))) (s_sub_u sp)) (0%nat, fun _ => 0%nat) = (s, sub)).
    { rewrite combine_nth by apply seq_length. rewrite seq_nth by exact Hs. reflexivity. }
    rewrite <- NC. apply nth_In. rewrite combine_length, seq_length. lia. }
  specialize (AL _ (g, g_u c (s_lo sp d (sub b)), 1 * g_L c s d a b * 1) IT). destruct AL as [Z|I].
  - unfold term_entries. cbn [t_n t_m t_row t_col t_val t_diag]. apply in_or_app. left. apply in_flat_map. exists a. split; [apply in_seq; lia|]. apply in_flat_map. exists b. split; [apply in_seq; lia|].
    rewrite <- Eg. unfold expand. rewrite Cg, Cb. left. reflexivity.
  - cbn in Z. apply HL. lra.
  - cbn [fst] in I. unfold initialize_matrices in I. cbn [pat_u] in I. rewrite HO in I. cbn [velocity_constraints] in I. apply in_flat_map in I as (e & Ie & I). cbn [velocity_pieces flat_map] in I. rewrite app_nil_r in I.
    unfold piece_pattern in I. cbn [q_n q_m q_row q_col q_mask q_diag] in I. apply in_app_or in I as [I|I].
    + apply in_flat_map in I as (i & Ii & I). apply in_flat_map in I as (j & Ij & I). apply in_flat_map in I as ([m w] & Im & I). apply in_map_iff in I as ([n v] & EE & _). cbn in EE. injection EE as E1 _. subst m.
      apply in_seq in Ii. unfold expand in Im. destruct (conscalar (g_scalar e i)) eqn:Ec; [pose proof (U3 _ _ _ Ec Im); cbn in *; lia|]. destruct Im as [Im|[]]. injection Im as Im _.
      assert (g_scalar e i < n_scalar)%nat by (apply U1; [exact Ie|lia]). lia.
    + apply in_flat_map in I as (i & Ii & I). apply in_seq in Ii. destruct (conscalar (g_scalar e i)); [|destruct I]. destruct I as [I|[]]. injection I as I _.
      assert (g_scalar e i < n_scalar)%nat by (apply U1; [exact Ie|lia]). lia.
Qed.
Print Assumptions C102_violation_initial_stokes.
(** The initial Stokes solve on a simplex mesh, where there are no sub-elements: the velocity matrix vanishes on all free unknowns. *)
Theorem C102_violation_simplex : forall o0 sp conu conscalar n_u pats cells old M,
  s_sub_u sp = [] -> assemble_u (initial_stokes o0) sp conu conscalar n_u pats cells old = Some M ->
  forall g h, conu g = None -> M g h = 0.
Proof.
  intros o0 sp conu conscalar n_u pats cells old M HS HA g h Hg. unfold assemble_u in HA. cbn [initial_stokes o_velocity velocity_constraints] in HA.
  destruct (add_terms _ conu _ old) as [M0|] eqn:E; [|rewrite set_none in HA; discriminate].
  rewrite (sets_some _ _ _ _ HA). apply add_terms_some in E as [E _]. rewrite E.
  assert (N : existsb (Nat.eqb g) (filter (constrained conu) (seq 0 n_u)) = false).
  { apply not_true_iff_false. intros X. apply existsb_exists in X as (i & I & X). apply Nat.eqb_eq in X. subst i. apply filter_In in I as [_ I]. unfold constrained in I. rewrite Hg in I. discriminate. }
  rewrite N, andb_false_r. apply suml_zero. intros t It. apply in_flat_map in It as (c & _ & It). cbn [velocity_terms] in It. rewrite HS in It. destruct It.
Qed.
Print Assumptions C102_violation_simplex.

(** One cell with two nodes; the second pressure unknown is constrained (zero): in the pressure mass matrix its diagonal entry stays the local one,
    unlike in the Poisson and velocity matrices and in the operator without matrix. *)
Definition small_space : space := MkSpace 2 2 (fun d i => (2 * d + i)%nat) (fun k => Nat.div k 2) 2 [fun k => k] 2 [fun k => k].
Definition small_cell : gcell := MkGcell (fun k => k) (fun k => k) (fun k => k)
  (fun d i j => if Nat.eqb i j then 2 else -1) (fun i j => if Nat.eqb i j then 2 else -1) (fun s d i j => if Nat.eqb i j then 2 else -1)
  (fun i j => if Nat.eqb i j then 1 else -1) (fun i j => if Nat.eqb i j then 1/3 else 1/6)
  (fun s i j => if Nat.eqb i j then 1 else -1) (fun s i j => if Nat.eqb i j then 1/3 else 1/6) [].
Definition second_fixed : constraints := fun h => if Nat.eqb h 1 then Some [] else None.
Definition free : constraints := fun _ => None.
Lemma small_numbering : numbering small_space.
Proof.
  split; cbn [small_space s_dim s_dofs s_lo s_comp].
  - intros d i Hd Hi. split; [lia|]. rewrite Nat.mul_comm. rewrite Nat.div_add_l by lia. rewrite Nat.div_small by lia. lia.
  - intros d i d' i' ? ? ? ?. lia.
Qed.
Lemma small_sub : sub_elements 2 2 [fun k : nat => k].
Proof. split; [intros sub k [<-|[]] Hk; exact Hk|]. intros i Hi. exists (fun k => k), i. split; [left|]; auto. Qed.
Lemma small_unknowns con m : (forall h l, con h = Some l -> l = []) -> unknowns con m m g_p [small_cell] /\ unknowns con m m g_u [small_cell] /\ unknowns con m m g_scalar [small_cell].
Proof.
  intros H.
  assert (X : forall dof : gcell -> nat -> nat, (forall k, dof small_cell k = k) -> unknowns con m m dof [small_cell]).
  { intros dof D. split; [|split].
    - intros c k [<-|[]] Hk. rewrite D. exact Hk.
    - intros g Hg. exists small_cell, g. split; [left; reflexivity|auto].
    - intros h l mw E I. rewrite (H h l E) in I. destruct I. }
  refine (conj (X g_p _) (conj (X g_u _) (X g_scalar _))); reflexivity.
Qed.
Definition small_p con m H := proj1 (small_unknowns con m H).
Definition small_u con m H := proj1 (proj2 (small_unknowns con m H)).
Definition small_scalar con m H := proj2 (proj2 (small_unknowns con m H)).
Lemma fixed_nil h l : second_fixed h = Some l -> l = [].
Proof. unfold second_fixed. destruct (Nat.eqb h 1); congruence. Qed.
Lemma fixed_closed : closed second_fixed.
Proof. intros h l m w E I. rewrite (fixed_nil h l E) in I. destruct I. Qed.
Definition small_setting (v : precondition_velocity) : setting := MkSetting v false true true.
Definition small_patterns v conu conscalar cons : patterns := initialize_matrices (small_setting v) small_space conu conscalar cons [small_cell].
Theorem C102_violation_mass : exists M,
  assemble_mass (small_setting u_amg) small_space second_fixed (small_patterns u_amg free free second_fixed) [small_cell] (fun _ _ => 0) = Some M /\
  M 1%nat 1%nat = 1/3.
Proof.
  destruct (C102_pressure_defined (small_setting u_amg) (small_setting u_amg) small_space free free second_fixed second_fixed 2 [small_cell] (fun _ _ => 0)
    small_sub (or_introl eq_refl) eq_refl eq_refl (fun x => x) (small_p second_fixed 2 fixed_nil)) as [_ [M HM]].
  exists M. split; [exact HM|]. unfold assemble_mass in HM. cbn [small_setting o_mass_ilu orb] in HM.
  change (pat_mass _) with (Some (flat_map (fun c => flat_map (piece_pattern second_fixed) (pressure_pieces (small_setting u_amg) small_space c)) [small_cell])) in HM.
  cbv iota beta in HM. apply add_terms_some in HM as [HM _]. rewrite HM.
  change (flat_map (mass_terms (small_setting u_amg) small_space) [small_cell]) with [MkTerm 2 (fun k => k) 2 (fun k => k) (g_M small_cell) true]. cbn [suml].
  destruct (row_constrained second_fixed (MkTerm 2 (fun k => k) 2 (fun k => k) (g_M small_cell) true) 1 1 fixed_closed ltac:(discriminate)) as [X _].
  rewrite X. unfold own_diagonal, new_diagonal. cbn [t_diag t_n t_row t_val sumn Nat.eqb small_cell g_M]. rewrite Rabs_pos_eq by lra.
  destruct (Rneqb (1/3) 0) eqn:Z; [lra|]. unfold Rneqb in Z. destruct (Req_EM_T (1/3) 0); [lra|discriminate].
Qed.
Print Assumptions C102_violation_mass.
(** A symmetry boundary: the first component of the velocity at a node is constrained, the node itself is not in the scalar matrix.  The matrix for all
    components decouples this unknown, the scalar matrix, which is used for every component, does not. *)
Theorem C102_violation_scalar_symmetry : exists M Ms,
  assemble_u (small_setting u_ilu) small_space second_fixed free 4 (small_patterns u_ilu second_fixed free free) [small_cell] (fun _ _ => 0) = Some M /\
  assemble_u (small_setting u_ilu_scalar) small_space second_fixed free 2 (small_patterns u_ilu_scalar second_fixed free free) [small_cell] (fun _ _ => 0) = Some Ms /\
  M 1%nat 0%nat = 0 /\ M 1%nat 1%nat = 1 /\ Ms 1%nat 0%nat = -1 /\ Ms 1%nat 1%nat = 2.
Proof.
  destruct (C102_velocity_defined (small_setting u_ilu) (small_setting u_ilu) small_space second_fixed free free 4 [small_cell] (fun _ _ => 0)
    small_numbering small_sub (or_introl eq_refl) (small_u second_fixed 4 fixed_nil)) as [M HM].
  destruct (C102_velocity_defined (small_setting u_ilu_scalar) (small_setting u_ilu_scalar) small_space second_fixed free free 2 [small_cell] (fun _ _ => 0)
    small_numbering small_sub (or_introl eq_refl) (small_scalar free 2 ltac:(discriminate))) as [Ms HMs].
  exists M, Ms. split; [exact HM|]. split; [exact HMs|].
  destruct (C102_velocity (small_setting u_ilu) small_space second_fixed free 4 _ [small_cell] _ M small_numbering small_sub fixed_closed (small_u second_fixed 4 fixed_nil) HM) as [_ V].
  destruct (C102_velocity (small_setting u_ilu_scalar) small_space second_fixed free 2 _ [small_cell] _ Ms small_numbering small_sub ltac:(discriminate) (small_scalar free 2 ltac:(discriminate)) HMs) as [S _].
  destruct (V 1%nat 0%nat) as [V0 _]; [lia|discriminate|]. destruct (V 1%nat 1%nat) as [V1 _]; [lia|discriminate|]. cbn in V0, V1. split; [exact V0|]. split; [exact V1|].
  pose proof (S (unit_vec 0) 1%nat eq_refl) as S0. pose proof (S (unit_vec 1) 1%nat eq_refl) as S1. cbn in S0, S1. split; lra.
Qed.
Print Assumptions C102_violation_scalar_symmetry.

(** ** The hypotheses can be met *)
Example C102_nonvacuous : numbering small_space /\ sub_elements 2 2 [fun k : nat => k] /\ closed second_fixed /\ unknowns second_fixed 2 2 g_p [small_cell] /\
  (exists M, assemble_p (small_setting u_amg) small_space free (schur_constraints free (fun i => Nat.eqb i 1)) 2
     (small_patterns u_amg free free (schur_constraints free (fun i => Nat.eqb i 1))) [small_cell] (fun _ _ => 7) = Some M /\ M 1%nat 1%nat = 1 /\ M 1%nat 0%nat = 0 /\ M 0%nat 0%nat = 1) /\
  schur_complement_only 2 free (schur_constraints free (fun i => Nat.eqb i 1)) = [1%nat].
Proof.
  split; [exact small_numbering|]. split; [exact small_sub|]. split; [exact fixed_closed|]. split; [exact (small_p second_fixed 2 fixed_nil)|]. split; [|reflexivity].
  set (cons := schur_constraints free (fun i => Nat.eqb i 1)).
  assert (CN : forall h l, cons h = Some l -> l = []) by (intros h l; unfold cons, schur_constraints, free; destruct (Nat.eqb h 1); congruence).
  assert (CC : closed cons) by (intros h l m w E I; rewrite (CN h l E) in I; destruct I).
  destruct (C102_pressure_defined (small_setting u_amg) (small_setting u_amg) small_space free free free cons 2 [small_cell] (fun _ _ => 7)
    small_sub (or_introl eq_refl) eq_refl eq_refl (fun x => x) (small_p cons 2 CN)) as [[M HM] _].
  exists M. split; [exact HM|].
  destruct (C102_pressure (small_setting u_amg) small_space free cons 2 _ [small_cell] _ M small_sub CC (small_p cons 2 CN) ltac:(intros c f [<-|[]] []) eq_refl HM) as [F C].
  destruct (C 1%nat 1%nat) as [C1 _]; [lia|discriminate|]. destruct (C 1%nat 0%nat) as [C0 _]; [lia|discriminate|]. pose proof (F (unit_vec 0) 0%nat eq_refl) as F0.
  cbn in C1, C0, F0. unfold new_diagonal, magnitude in C1. cbn in C1. split; [|split; [exact C0|lra]]. rewrite C1. unfold new_diagonal. cbn. unfold pressure_matrix. cbn.
  rewrite Rabs_pos_eq by lra. destruct (Rneqb 1 0) eqn:Z; [lra|]. unfold Rneqb in Z. destruct (Req_EM_T 1 0); [lra|discriminate].
Qed.
Example C102_initial_stokes_nonvacuous :
  assemble_u (initial_stokes (small_setting u_ilu_scalar)) small_space free free 4 (small_patterns u_ilu_scalar free free free) [small_cell] (fun _ _ => 0) = None.
Proof.
  apply (C102_violation_initial_stokes (small_setting u_ilu_scalar) small_space free free free 4 2 [small_cell] _ small_cell 0 1 0 0 2); auto; try (cbn; lia).
  - apply small_scalar. discriminate.
  - left. reflexivity.
  - cbn. lra.
Qed.
Example C102_magnitude_nonvacuous : exists M M0,
  let extra := fun i => Nat.eqb i 1 in let pats := small_patterns u_amg free free free in
  assemble_p (small_setting u_amg) small_space free (schur_constraints free extra) 2 pats [small_cell] (fun _ _ => 0) = Some M /\
  assemble_p (small_setting u_amg) small_space free free 2 pats [small_cell] (fun _ _ => 0) = Some M0 /\
  (forall a, (a < 2)%nat -> g_p small_cell a = 1%nat -> 0 < g_P small_cell a a) /\ M 1%nat 1%nat = M0 1%nat 1%nat.
Proof.
  set (cons := schur_constraints free (fun i => Nat.eqb i 1)).
  assert (CN : forall h l, cons h = Some l -> l = []) by (intros h l; unfold cons, schur_constraints, free; destruct (Nat.eqb h 1); congruence).
  assert (PT : forall con, (forall i, con i = None \/ con i = Some []) -> exists M, assemble_p (small_setting u_amg) small_space free con 2 (small_patterns u_amg free free free) [small_cell] (fun _ _ => 0) = Some M).
  { intros con HC. unfold assemble_p. cbn [small_setting o_density].
    change (pat_p _) with (Some [(0, 0); (0, 1); (1, 0); (1, 1)]%nat). cbv iota beta.
    destruct (add_terms_defined [(0, 0); (0, 1); (1, 0); (1, 1)]%nat con (flat_map (poisson_terms (small_setting u_amg) small_space) [small_cell]) (fun _ _ => 0)) as [M0 E].
    { intros t [[r k] v] It Ie. right. cbn [fst].
      assert (B : (r < 2)%nat /\ (k < 2)%nat).
      { apply (entries_below con 2 t (r, k, v)); auto.
        - intros h l mw Eh Il. destruct (HC h) as [Z|Z]; rewrite Z in Eh; [discriminate|]. injection Eh as <-. destruct Il.
        - cbn in It. destruct It as [<-|[]]. split; cbn; intros; lia. }
      destruct r as [|[|r]], k as [|[|k]]; cbn; auto; lia. }
    rewrite E. apply sets_defined. intros i Ii. apply filter_In in Ii as [Ii _]. apply in_seq in Ii. destruct i as [|[|i]]; cbn; auto; lia. }
  destruct (PT cons) as [M HM]. { intros i. unfold cons, schur_constraints, free. destruct (Nat.eqb i 1); auto. }
  destruct (PT free) as [M0 HM0]. { intros i. left. reflexivity. }
  exists M, M0. cbv zeta. split; [exact HM|]. split; [exact HM0|].
  assert (P : forall a, (a < 2)%nat -> g_p small_cell a = 1%nat -> 0 < g_P small_cell a a) by (intros a _ _; cbn; rewrite Nat.eqb_refl; lra).
  split; [exact P|].
  refine (proj1 (C102_magnitude (small_setting u_amg) small_space free (fun i => Nat.eqb i 1) 2 _ [small_cell] _ M M0 1 small_sub _ _ eq_refl eq_refl _ _ _ _ _ eq_refl eq_refl _ HM HM0)).
  - intros h l m w E. discriminate.
  - apply small_p. discriminate.
  - discriminate.
  - intros c a b [<-|[]] _ _ E. exact E.
  - intros c a [<-|[]] Ha E. apply P; auto.
  - discriminate.
  - lia.
  - intros c f [<-|[]] [].
Qed.
Example C102_mass_nonvacuous : exists M,
  assemble_mass (small_setting u_amg_linear) small_space second_fixed (small_patterns u_amg_linear free free second_fixed) [small_cell] (fun _ _ => 5) = Some M /\
  M 0%nat 0%nat = g_LM small_cell 0 0 0 /\ M 0%nat 1%nat = 0.
Proof.
  destruct (C102_pressure_defined (small_setting u_amg_linear) (small_setting u_amg_linear) small_space free free second_fixed second_fixed 2 [small_cell] (fun _ _ => 5)
    small_sub (or_introl eq_refl) eq_refl eq_refl (fun x => x) (small_p second_fixed 2 fixed_nil)) as [_ [M HM]].
  exists M. split; [exact HM|].
  destruct (C102_mass (small_setting u_amg_linear) small_space second_fixed 2 _ [small_cell] _ M small_sub fixed_closed (small_p second_fixed 2 fixed_nil) eq_refl HM) as [F C].
  pose proof (F (unit_vec 0) 0%nat eq_refl) as F0. destruct (C 1%nat 0%nat) as [_ C0]; [lia|discriminate|]. cbn in F0, C0. unfold action, share, value in F0. cbn in F0.
  split; [|exact C0]. cbn. lra.
Qed.
