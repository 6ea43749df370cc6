(** * Property theorems C14 - C16, C18, C52: boundary registration

    Specification vocabulary (independent of the registry): a history is the list of calls in order.
    [registers dim c] says, for one call, what it registers; [latest h p] is the last answer of [p]
    over the history. *)
From stdpp Require Import gmap numbers list.
From Coq Require Import ZArith NArith String Lia.
From Coq Require Sorting.Sorted.
From Verif Require Import Model_Boundary.
Open Scope N_scope.

(** ** Specification *)
Fixpoint latest {A} (p : call -> option A) (h : list call) : option A :=
  match h with
  | [] => None
  | c :: t => match latest p t with Some a => Some a | None => p c end
  end.
(** the part of the history after the last clear_all_boundary_conditions() *)
Fixpoint since_clear (h : list call) : list call :=
  match h with
  | [] => []
  | c :: t => if existsb (fun c => match c with ClearAll => true | _ => false end) t
              then since_clear t
              else match c with ClearAll => t | _ => c :: t end
  end.
Definition valid_velocity (dim : N) (b : bid) (c : call) : option func :=
  match c with
  | SetVelocity b' (Some f) _ => if (b' =? b) && (n_components f =? dim) then Some f else None
  | _ => None
  end.
Definition valid_pressure (b : bid) (c : call) : option func :=
  match c with
  | SetOpen b' None _ | SetOpenNormal b' None _ => if b' =? b then Some (ZeroFun 1) else None
  | SetOpen b' (Some f) _ | SetOpenNormal b' (Some f) _ =>
      if (b' =? b) && (n_components f =? 1) then Some f else None
  | _ => None
  end.
Definition valid_fix (b : bid) (c : call) : option (option func) :=
  match c with
  | FixPressure b' None => if b' =? b then Some None else None
  | FixPressure b' (Some f) => if (b' =? b) && (n_components f =? 1) then Some (Some f) else None
  | _ => None
  end.
(** the inflow fluid type +1 / -1 as a constant scalar function; needs an accepted condition *)
Definition valid_fluid (dim : N) (b : bid) (c : call) : option func :=
  let pick (b' : bid) (ft : Z) (ok : bool) :=
    if (b' =? b) && ok && ((ft =? 1) || (ft =? -1))%Z then Some (ConstFun ft 1) else None in
  match c with
  | SetVelocity b' (Some f) ft => pick b' ft (n_components f =? dim)
  | SetOpen b' f ft | SetOpenNormal b' f ft =>
      pick b' ft (match f with None => true | Some f => n_components f =? 1 end)
  | _ => None
  end.
Definition is_no_slip (b : bid) (c : call) : Prop := c = SetNoSlip b \/ exists ft, c = SetVelocity b None ft.
Definition is_symmetry (b : bid) (c : call) : Prop := c = SetSymmetry b.
Definition is_normal_flux (b : bid) (c : call) : Prop :=
  exists f ft, c = SetOpenNormal b f ft /\ match f with None => True | Some f => n_components f = 1 end.
Definition valid_periodic (dim d : N) (c : call) : option (bid * bid) :=
  match c with SetPeriodic d' i o => if (d' =? d) && (d <? dim) then Some (i, o) else None | _ => None end.

(** ** Auxiliary *)
Lemma run_app dim h1 h2 r : run dim (h1 ++ h2) r = run dim h2 (run dim h1 r).
Proof. revert r; induction h1; intros r; cbn; auto. Qed.
Lemma latest_app {A} (p : call -> option A) h c :
  latest p (h ++ [c]) = match p c with Some a => Some a | None => latest p h end.
Proof. induction h as [|c' h IH]; cbn; [destruct (p c); auto|]. rewrite IH. destruct (p c); auto. Qed.
Lemma since_clear_app h c :
  since_clear (h ++ [c]) = match c with ClearAll => [] | _ => since_clear h ++ [c] end.
Proof.
  induction h as [|c' h IH]; cbn; [destruct c; auto|].
  rewrite IH, existsb_app. cbn. rewrite orb_false_r.
  destruct c; cbn; rewrite ?orb_false_r, ?orb_true_r; auto;
    destruct (existsb _ h); auto; destruct c'; auto.
Qed.

Ltac bd := repeat match goal with
  | |- context [(?a =? ?b)%N] => destruct (N.eqb_spec a b); cbn
  | |- context [(?a =? ?b)%Z] => destruct (Z.eqb_spec a b); cbn
  end.

Lemma store_du b ft r : dirichlet_u (fst (store_fluid_type b ft r)) = dirichlet_u r.
Proof. unfold store_fluid_type; bd; reflexivity. Qed.
Lemma store_op b ft r : open_p (fst (store_fluid_type b ft r)) = open_p r.
Proof. unfold store_fluid_type; bd; reflexivity. Qed.
Lemma store_pf b ft r : pressure_fix (fst (store_fluid_type b ft r)) = pressure_fix r.
Proof. unfold store_fluid_type; bd; reflexivity. Qed.
Lemma store_nf b ft r : normal_flux (fst (store_fluid_type b ft r)) = normal_flux r.
Proof. unfold store_fluid_type; bd; reflexivity. Qed.
Lemma store_sy b ft r : symmetry (fst (store_fluid_type b ft r)) = symmetry r.
Proof. unfold store_fluid_type; bd; reflexivity. Qed.
Lemma store_ns b ft r : no_slip (fst (store_fluid_type b ft r)) = no_slip r.
Proof. unfold store_fluid_type; bd; reflexivity. Qed.
Lemma store_pe b ft r : periodic (fst (store_fluid_type b ft r)) = periodic r.
Proof. unfold store_fluid_type; bd; reflexivity. Qed.

Lemma du_spec dim h b :
  dirichlet_u (run dim h empty_registry) !! b = latest (valid_velocity dim b) (since_clear h).
Proof.
  induction h as [|c h IH] using rev_ind; [reflexivity|].
  rewrite run_app, since_clear_app. cbn. set (r := run dim h empty_registry) in *. clearbody r.
  destruct c as [|b' [f|] ft|b' [f|] ft|b' [f|] ft|b' f|b'|b'|d i o]; rewrite ?latest_app; cbn; auto.
  - destruct (N.eqb_spec (n_components f) dim); cbn; rewrite ?andb_true_r, ?andb_false_r; auto.
    rewrite store_du. cbn. destruct (N.eqb_spec b' b) as [->|]; [apply lookup_insert|rewrite lookup_insert_ne; auto].
  - destruct (n_components f =? 1); cbn; rewrite ?store_du; auto.
  - rewrite store_du; auto.
  - destruct (n_components f =? 1); cbn; rewrite ?store_du; auto.
  - rewrite store_du; auto.
  - unfold fix_pressure_constant; destruct f as [f|]; [destruct (n_components f =? 1)|]; auto.
  - unfold set_periodic_direction; destruct (d <? dim); auto.
Qed.
Lemma op_spec dim h b :
  open_p (run dim h empty_registry) !! b = latest (valid_pressure b) (since_clear h).
Proof.
  induction h as [|c h IH] using rev_ind; [reflexivity|].
  rewrite run_app, since_clear_app. cbn. set (r := run dim h empty_registry) in *. clearbody r.
  destruct c as [|b' [f|] ft|b' [f|] ft|b' [f|] ft|b' f|b'|b'|d i o]; rewrite ?latest_app; cbn; auto.
  - destruct (N.eqb_spec (n_components f) dim); cbn; rewrite ?store_op; auto.
  - destruct (n_components f =? 1); cbn; rewrite ?store_op, ?andb_true_r, ?andb_false_r; auto. cbn.
    destruct (N.eqb_spec b' b) as [->|]; [apply lookup_insert|rewrite lookup_insert_ne; auto].
  - rewrite store_op; cbn. destruct (N.eqb_spec b' b) as [->|]; [apply lookup_insert|rewrite lookup_insert_ne; auto].
  - destruct (n_components f =? 1); cbn; rewrite ?store_op, ?andb_true_r, ?andb_false_r; auto. cbn.
    destruct (N.eqb_spec b' b) as [->|]; [apply lookup_insert|rewrite lookup_insert_ne; auto].
  - rewrite store_op; cbn. destruct (N.eqb_spec b' b) as [->|]; [apply lookup_insert|rewrite lookup_insert_ne; auto].
  - unfold fix_pressure_constant; destruct f as [f|]; [destruct (n_components f =? 1)|]; auto.
  - unfold set_periodic_direction; destruct (d <? dim); auto.
Qed.
Lemma pf_spec dim h b :
  pressure_fix (run dim h empty_registry) !! b = latest (valid_fix b) (since_clear h).
Proof.
  induction h as [|c h IH] using rev_ind; [reflexivity|].
  rewrite run_app, since_clear_app. cbn. set (r := run dim h empty_registry) in *. clearbody r.
  destruct c as [|b' [f|] ft|b' [f|] ft|b' [f|] ft|b' f|b'|b'|d i o]; rewrite ?latest_app; cbn; auto.
  - destruct (N.eqb_spec (n_components f) dim); cbn; rewrite ?store_pf; auto.
  - destruct (n_components f =? 1); cbn; rewrite ?store_pf; auto.
  - rewrite store_pf; auto.
  - destruct (n_components f =? 1); cbn; rewrite ?store_pf; auto.
  - rewrite store_pf; auto.
  - unfold fix_pressure_constant; destruct f as [f|]; [destruct (n_components f =? 1)|]; cbn;
      rewrite ?andb_true_r, ?andb_false_r; auto;
      (destruct (N.eqb_spec b' b) as [->|]; [apply lookup_insert|rewrite lookup_insert_ne; auto]).
  - unfold set_periodic_direction; destruct (d <? dim); auto.
Qed.
Lemma ft_store b' ft r b : fluid_type (fst (store_fluid_type b' ft r)) !! b =
  if (b' =? b) && ((ft =? 1) || (ft =? -1))%Z then Some (ConstFun ft 1) else fluid_type r !! b.
Proof.
  unfold store_fluid_type.
  destruct (Z.eqb_spec ft 0) as [->|]; cbn; [rewrite andb_false_r; auto|].
  destruct (Z.eqb_spec ft 1) as [->|]; cbn.
  { rewrite andb_true_r. destruct (N.eqb_spec b' b) as [->|]; [apply lookup_insert|rewrite lookup_insert_ne; auto]. }
  destruct (Z.eqb_spec ft (-1)) as [->|]; cbn; [|rewrite andb_false_r; auto].
  rewrite andb_true_r. destruct (N.eqb_spec b' b) as [->|]; [apply lookup_insert|rewrite lookup_insert_ne; auto].
Qed.
Lemma ft_spec dim h b :
  fluid_type (run dim h empty_registry) !! b = latest (valid_fluid dim b) h.
Proof.
  induction h as [|c h IH] using rev_ind; [reflexivity|].
  rewrite run_app, latest_app. cbn. set (r := run dim h empty_registry) in *. clearbody r.
  destruct c as [|b' [f|] ft|b' [f|] ft|b' [f|] ft|b' f|b'|b'|d i o]; cbn; auto.
  - destruct (N.eqb_spec (n_components f) dim); cbn; rewrite ?ft_store, ?andb_true_r, ?andb_false_r; cbn; auto.
    destruct (_ && _); auto.
  - destruct (N.eqb_spec (n_components f) 1); cbn; rewrite ?ft_store, ?andb_true_r, ?andb_false_r; cbn; auto.
    destruct (_ && _); auto.
  - rewrite ft_store, andb_true_r; cbn. destruct (_ && _); auto.
  - destruct (N.eqb_spec (n_components f) 1); cbn; rewrite ?ft_store, ?andb_true_r, ?andb_false_r; cbn; auto.
    destruct (_ && _); auto.
  - rewrite ft_store, andb_true_r; cbn. destruct (_ && _); auto.
  - unfold fix_pressure_constant; destruct f as [f|]; [destruct (n_components f =? 1)|]; auto.
  - unfold set_periodic_direction; destruct (d <? dim); auto.
Qed.
Lemma since_clear_in c h : c ∈ since_clear h -> c ∈ h.
Proof.
  induction h as [|c' h IH] using rev_ind; [auto|]. rewrite since_clear_app.
  destruct c'; rewrite ?elem_of_app; try tauto; intros X; apply elem_of_nil in X; contradiction.
Qed.

Ltac sets := repeat rewrite elem_of_union; repeat rewrite elem_of_singleton.
Lemma ns_spec dim h b :
  b ∈ no_slip (run dim h empty_registry) <-> exists c, c ∈ since_clear h /\ is_no_slip b c.
Proof.
  induction h as [|c h IH] using rev_ind.
  { cbn. split; [set_solver|]. intros (c & X & _). apply elem_of_nil in X; contradiction. }
  rewrite run_app, since_clear_app. cbn [run]. set (r := run dim h empty_registry) in *. clearbody r.
  assert (K : forall (c0 : call), (exists c1, c1 ∈ since_clear h ++ [c0] /\ is_no_slip b c1) <->
     (exists c1, c1 ∈ since_clear h /\ is_no_slip b c1) \/ is_no_slip b c0).
  { intros c0. split.
    - intros (c1 & X & Y). rewrite elem_of_app, elem_of_list_singleton in X. destruct X as [X| ->]; eauto.
    - intros [(c1 & X & Y)|Y]; eexists; rewrite elem_of_app, elem_of_list_singleton; eauto. }
  assert (D : forall c0, (forall ft, c0 <> SetVelocity b None ft) -> c0 <> SetNoSlip b -> ~ is_no_slip b c0).
  { intros c0 X Y [Z|[ft Z]]; [exact (Y Z)|exact (X _ Z)]. }
  destruct c as [|b' [f|] ft|b' f ft|b' f ft|b' f|b'|b'|d i o]; try (rewrite K; rewrite <- IH; clear K IH);
    try match goal with |- _ <-> _ \/ is_no_slip b ?c0 =>
          assert (Dc : ~ is_no_slip b c0) by (apply D; intros; discriminate) end; cbn.
  - split; [set_solver|]. intros (c & X & _). apply elem_of_nil in X; contradiction.
  - destruct (n_components f =? dim); cbn; rewrite ?store_ns; cbn; tauto.
  - sets. unfold is_no_slip. split; [intros [->|X]; eauto|intros [X|[X|[ft' X]]]; auto; [discriminate|injection X; auto]].
  - unfold set_velocity_dirichlet_boundary, set_open_boundary, set_open_boundary_with_normal_flux; destruct f as [f|]; [destruct (n_components f =? 1)|]; cbn; rewrite ?store_ns; cbn; tauto.
  - unfold set_velocity_dirichlet_boundary, set_open_boundary, set_open_boundary_with_normal_flux; destruct f as [f|]; [destruct (n_components f =? 1)|]; cbn; rewrite ?store_ns; cbn; tauto.
  - unfold fix_pressure_constant; destruct f as [f|]; [destruct (n_components f =? 1)|]; cbn; tauto.
  - tauto.
  - sets. unfold is_no_slip. split; [intros [->|X]; eauto|intros [X|[X|[ft' X]]]; auto; [injection X; auto|discriminate]].
  - unfold set_periodic_direction; destruct (d <? dim); cbn; tauto.
Qed.
Lemma sy_spec dim h b :
  b ∈ symmetry (run dim h empty_registry) <-> exists c, c ∈ since_clear h /\ is_symmetry b c.
Proof.
  induction h as [|c h IH] using rev_ind.
  { cbn. split; [set_solver|]. intros (c & X & _). apply elem_of_nil in X; contradiction. }
  rewrite run_app, since_clear_app. cbn [run]. set (r := run dim h empty_registry) in *. clearbody r.
  assert (K : forall (c0 : call), (exists c1, c1 ∈ since_clear h ++ [c0] /\ is_symmetry b c1) <->
     (exists c1, c1 ∈ since_clear h /\ is_symmetry b c1) \/ is_symmetry b c0).
  { intros c0. split.
    - intros (c1 & X & Y). rewrite elem_of_app, elem_of_list_singleton in X. destruct X as [X| ->]; eauto.
    - intros [(c1 & X & Y)|Y]; eexists; rewrite elem_of_app, elem_of_list_singleton; eauto. }
  unfold is_symmetry in *.
  destruct c as [|b' [f|] ft|b' [f|] ft|b' [f|] ft|b' f|b'|b'|d i o]; try (rewrite K; rewrite <- IH; clear K IH); cbn.
  - split; [set_solver|]. intros (c & X & _). apply elem_of_nil in X; contradiction.
  - destruct (n_components f =? dim); cbn; rewrite ?store_sy; cbn; intuition discriminate.
  - intuition discriminate.
  - destruct (n_components f =? 1); cbn; rewrite ?store_sy; cbn; intuition discriminate.
  - rewrite ?store_sy; cbn; intuition discriminate.
  - destruct (n_components f =? 1); cbn; rewrite ?store_sy; cbn; intuition discriminate.
  - rewrite ?store_sy; cbn; intuition discriminate.
  - unfold fix_pressure_constant; destruct f as [f|]; [destruct (n_components f =? 1)|]; cbn; intuition discriminate.
  - sets. split; [intros [->|X]; eauto|intros [X|X]; auto; injection X; auto].
  - intuition discriminate.
  - unfold set_periodic_direction; destruct (d <? dim); cbn; intuition discriminate.
Qed.
Lemma nf_spec dim h b :
  b ∈ normal_flux (run dim h empty_registry) <-> exists c, c ∈ since_clear h /\ is_normal_flux b c.
Proof.
  induction h as [|c h IH] using rev_ind.
  { cbn. split; [set_solver|]. intros (c & X & _). apply elem_of_nil in X; contradiction. }
  rewrite run_app, since_clear_app. cbn [run]. set (r := run dim h empty_registry) in *. clearbody r.
  assert (K : forall (c0 : call), (exists c1, c1 ∈ since_clear h ++ [c0] /\ is_normal_flux b c1) <->
     (exists c1, c1 ∈ since_clear h /\ is_normal_flux b c1) \/ is_normal_flux b c0).
  { intros c0. split.
    - intros (c1 & X & Y). rewrite elem_of_app, elem_of_list_singleton in X. destruct X as [X| ->]; eauto.
    - intros [(c1 & X & Y)|Y]; eexists; rewrite elem_of_app, elem_of_list_singleton; eauto. }
  assert (D : forall c0, (forall b' f ft, c0 <> SetOpenNormal b' f ft) -> ~ is_normal_flux b c0).
  { intros c0 X (f & ft & Y & _). exact (X _ _ _ Y). }
  destruct c as [|b' f ft|b' f ft|b' [f|] ft|b' f|b'|b'|d i o]; try (rewrite K; rewrite <- IH; clear K IH);
    try match goal with |- _ <-> _ \/ is_normal_flux b ?c0 =>
          match c0 with SetOpenNormal _ _ _ => fail 1 | _ =>
          assert (Dc : ~ is_normal_flux b c0) by (apply D; intros; discriminate) end end; cbn.
  - split; [set_solver|]. intros (c & X & _). apply elem_of_nil in X; contradiction.
  - unfold set_velocity_dirichlet_boundary, set_open_boundary, set_open_boundary_with_normal_flux; destruct f as [f|]; [destruct (n_components f =? dim)|]; cbn; rewrite ?store_nf; cbn; tauto.
  - unfold set_velocity_dirichlet_boundary, set_open_boundary, set_open_boundary_with_normal_flux; destruct f as [f|]; [destruct (n_components f =? 1)|]; cbn; rewrite ?store_nf; cbn; tauto.
  - destruct (N.eqb_spec (n_components f) 1) as [E|E]; cbn; rewrite ?store_nf; cbn.
    + sets. split; [intros [->|X]; auto; right; exists (Some f), ft; auto|].
      intros [X|(f' & ft' & Y & _)]; auto. injection Y; auto.
    + split; auto. intros [X|(f' & ft' & Y & Z)]; auto. injection Y as -> <- <-. contradiction.
  - rewrite store_nf; cbn. sets. split; [intros [->|X]; auto; right; exists None, ft; auto|].
    intros [X|(f' & ft' & Y & _)]; auto. injection Y; auto.
  - unfold fix_pressure_constant; destruct f as [f|]; [destruct (n_components f =? 1)|]; cbn; tauto.
  - tauto.
  - tauto.
  - unfold set_periodic_direction; destruct (d <? dim); cbn; tauto.
Qed.
Lemma pe_spec dim h d :
  periodic (run dim h empty_registry) d
  = match latest (valid_periodic dim d) h with Some p => p | None => (invalid_id, invalid_id) end.
Proof.
  induction h as [|c h IH] using rev_ind; [reflexivity|].
  rewrite run_app, latest_app. cbn [run]. set (r := run dim h empty_registry) in *. clearbody r.
  destruct c as [|b' [f|] ft|b' [f|] ft|b' [f|] ft|b' f|b'|b'|d' i o]; cbn; auto.
  - destruct (n_components f =? dim); cbn; rewrite ?store_pe; auto.
  - destruct (n_components f =? 1); cbn; rewrite ?store_pe; auto.
  - rewrite store_pe; auto.
  - destruct (n_components f =? 1); cbn; rewrite ?store_pe; auto.
  - rewrite store_pe; auto.
  - unfold fix_pressure_constant; destruct f as [f|]; [destruct (n_components f =? 1)|]; auto.
  - unfold set_periodic_direction. destruct (N.eqb_spec d' d) as [->|Hn]; cbn.
    + destruct (d <? dim); cbn; rewrite ?N.eqb_refl; auto.
    + destruct (d' <? dim); cbn; auto. rewrite (proj2 (N.eqb_neq d d')); auto.
Qed.

(** ** C14 *)
(** The content of the registry after any history of calls, including calls that threw. *)
Theorem C14_registry_is_the_history :
  forall (dim : N) (h : list call) (b d : N),
    let r := run dim h empty_registry in
    dirichlet_u r !! b = latest (valid_velocity dim b) (since_clear h) /\
    open_p r !! b = latest (valid_pressure b) (since_clear h) /\
    pressure_fix r !! b = latest (valid_fix b) (since_clear h) /\
    (b ∈ no_slip r <-> exists c, c ∈ since_clear h /\ is_no_slip b c) /\
    (b ∈ symmetry r <-> exists c, c ∈ since_clear h /\ is_symmetry b c) /\
    (b ∈ normal_flux r <-> exists c, c ∈ since_clear h /\ is_normal_flux b c) /\
    fluid_type r !! b = latest (valid_fluid dim b) h /\
    periodic r d = match latest (valid_periodic dim d) h with
                   | Some p => p | None => (invalid_id, invalid_id) end.
Proof.
  intros dim h b d r.
  repeat apply conj; first
    [apply du_spec|apply op_spec|apply pf_spec|apply ft_spec|apply pe_spec
    |apply ns_spec|apply sy_spec|apply nf_spec|idtac].
  all: first [apply (proj1 (ns_spec _ _ _))|apply (proj1 (sy_spec _ _ _))|apply (proj1 (nf_spec _ _ _))
             |apply (proj2 (ns_spec _ _ _))|apply (proj2 (sy_spec _ _ _))|apply (proj2 (nf_spec _ _ _))].
Qed.
Print Assumptions C14_registry_is_the_history.

(** which calls throw, and that a rejected function changes nothing *)
Theorem C14_rejections :
  forall (dim : N) (r : registry) (c : call),
    (exists m, snd (exec dim c r) = Throws m) <->
    match c with
    | SetVelocity _ (Some f) ft => n_components f <> dim \/ (ft <> 0 /\ ft <> 1 /\ ft <> -1)%Z
    | SetOpen _ f ft | SetOpenNormal _ f ft =>
        (match f with None => False | Some f => n_components f <> 1 end)
        \/ (ft <> 0 /\ ft <> 1 /\ ft <> -1)%Z
    | FixPressure _ (Some f) => n_components f <> 1
    | SetPeriodic d _ _ => dim <= d
    | _ => False
    end.
Proof.
  intros dim r c.
  assert (S : forall b ft r, (exists m, snd (store_fluid_type b ft r) = Throws m) <-> (ft <> 0 /\ ft <> 1 /\ ft <> -1)%Z).
  { intros b ft r0. unfold store_fluid_type.
    bd; subst; split; intros X; try (destruct X as [m X]; discriminate X); try lia; try tauto; eexists; reflexivity. }
  assert (T : forall m0, (exists m, Throws m0 = Throws m) <-> True).
  { intros; split; eauto. }
  assert (F : (exists m, Done = Throws m) <-> False).
  { intros; split; [intros [m X]; discriminate X|tauto]. }
  destruct c as [|b' [f|] ft|b' [f|] ft|b' [f|] ft|b' [f|]|b'|b'|d i o]; cbn;
    unfold fix_pressure_constant, set_no_slip_boundary, set_symmetry_boundary, set_periodic_direction;
    cbn; rewrite ?F; try tauto.
  - destruct (N.eqb_spec (n_components f) dim); cbn; [rewrite S; tauto|rewrite T; tauto].
  - destruct (N.eqb_spec (n_components f) 1); cbn; [rewrite S; tauto|rewrite T; tauto].
  - rewrite S; tauto.
  - destruct (N.eqb_spec (n_components f) 1); cbn; [rewrite S; tauto|rewrite T; tauto].
  - rewrite S; tauto.
  - destruct (N.eqb_spec (n_components f) 1); cbn; [rewrite F; tauto|rewrite T; tauto].
  - destruct (N.ltb_spec d dim); cbn; [rewrite F; lia|rewrite T; tauto].
Qed.
Print Assumptions C14_rejections.

Theorem C14_wrong_components_change_nothing :
  forall (dim : N) (r : registry) (b : bid) (f : func) (ft : Z),
    (n_components f <> dim -> fst (exec dim (SetVelocity b (Some f) ft) r) = r) /\
    (n_components f <> 1 -> fst (exec dim (SetOpen b (Some f) ft) r) = r /\
                            fst (exec dim (SetOpenNormal b (Some f) ft) r) = r /\
                            fst (exec dim (FixPressure b (Some f)) r) = r).
Proof.
  intros. cbn. unfold fix_pressure_constant. split; intros H; apply N.eqb_neq in H; rewrite ?H; auto.
Qed.
Print Assumptions C14_wrong_components_change_nothing.

(** An unknown fluid type is not rejected atomically: the velocity condition stays registered. *)
Theorem C14_atomic_rejection_refuted :
  exists (dim : N) (c : call) (m : string),
    snd (exec dim c empty_registry) = Throws m /\
    dirichlet_u (fst (exec dim c empty_registry)) !! 1 = Some (UserFun 0 2) /\
    dirichlet_u empty_registry !! 1 = None.
Proof. exists 2, (SetVelocity 1 (Some (UserFun 0 2)) 5), "Unknown fluid type"%string. repeat split. Qed.
Print Assumptions C14_atomic_rejection_refuted.

(** a concrete history exercising clear, overwriting, rejection *)
Definition ex_hist : list call :=
  [SetVelocity 1 (Some (UserFun 0 2)) 1; SetPeriodic 0 5 6; ClearAll; SetVelocity 1 (Some (UserFun 1 2)) 0;
   SetVelocity 1 (Some (UserFun 2 3)) 0; SetOpenNormal 2 None (-1); SetVelocity 3 None 1; SetSymmetry 4].
Example C14_nonvacuous :
  latest (valid_velocity 2 1) (since_clear ex_hist) = Some (UserFun 1 2) /\
  latest (valid_fluid 2 1) ex_hist = Some (ConstFun 1 1) /\
  latest (valid_fluid 2 2) ex_hist = Some (ConstFun (-1) 1) /\
  latest (valid_pressure 2) (since_clear ex_hist) = Some (ZeroFun 1).
Proof. repeat split. Qed.

(** ** C15 *)
Theorem C15_clear_all_partial :
  forall (dim : N) (h : list call),
    let r := run dim (h ++ [ClearAll]) empty_registry in
    dirichlet_u r = ∅ /\ open_p r = ∅ /\ pressure_fix r = ∅ /\ normal_flux r = ∅ /\
    symmetry r = ∅ /\ no_slip r = ∅ /\
    (* exactly what survives *)
    (r = empty_registry <-> fluid_type r = ∅ /\ periodic r = (fun _ => (invalid_id, invalid_id))) /\
    (forall b, fluid_type r !! b = latest (valid_fluid dim b) h) /\
    (forall d, periodic r d = match latest (valid_periodic dim d) h with
                              | Some p => p | None => (invalid_id, invalid_id) end).
Proof.
  intros dim h. cbn zeta. rewrite run_app.
  pose proof (fun b => ft_spec dim h b) as F. pose proof (fun d => pe_spec dim h d) as P.
  set (r := run dim h empty_registry) in *. clearbody r. cbn.
  do 6 (split; [reflexivity|]).
  split; [|auto]. unfold clear_all, empty_registry. split.
  - intros X. injection X as -> ->. auto.
  - intros [-> ->]. reflexivity.
Qed.
Print Assumptions C15_clear_all_partial.
Theorem C15_clear_all_refuted :
  exists (dim : N) (h : list call) (b : bid),
    fluid_type (run dim (h ++ [ClearAll]) empty_registry) !! b <> fluid_type empty_registry !! b /\
    periodic (run dim (h ++ [ClearAll]) empty_registry) 0 <> periodic empty_registry 0.
Proof. exists 2, [SetOpen 3 None 1; SetPeriodic 0 1 2], 3. split; intros X; vm_compute in X; discriminate X. Qed.
Print Assumptions C15_clear_all_refuted.

(** ** C16 *)
(** Specification: the set of boundary ids with the different kinds of conditions *)
Definition has_velocity (r : registry) (b : bid) : Prop := is_Some (dirichlet_u r !! b) \/ b ∈ no_slip r.
Definition has_pressure (r : registry) (b : bid) : Prop := is_Some (open_p r !! b).
Definition has_symmetry (r : registry) (b : bid) : Prop := b ∈ symmetry r.
Definition is_periodic (dim : N) (r : registry) (i o : bid) : Prop :=
  exists d, d < dim /\ periodic r d = (i, o) /\ (i, o) <> (invalid_id, invalid_id).
Record compatible (dim : N) (r : registry) : Prop := {
  periodic_faces_differ : forall i o, is_periodic dim r i o -> i <> o;
  periodic_exclusive : forall i o b, is_periodic dim r i o -> (b = i \/ b = o) ->
    ~ has_velocity r b /\ ~ has_pressure r b /\ ~ has_symmetry r b;
  symmetry_exclusive : forall b, has_symmetry r b -> ~ has_velocity r b /\ ~ has_pressure r b;
  velocity_pressure_exclusive : forall b, has_velocity r b -> ~ has_pressure r b;
  fixing_excludes_pressure : forall b b', is_Some (pressure_fix r !! b) -> ~ has_pressure r b' }.

Lemma first_throw_done {A} (f : A -> outcome) l : first_throw f l = Done <-> Forall (fun a => f a = Done) l.
Proof.
  induction l as [|a l IH]; cbn; [split; auto|]. rewrite Forall_cons. destruct (f a); intuition discriminate.
Qed.
Lemma and_then_done o k : and_then o k = Done <-> o = Done /\ k = Done.
Proof. destruct o; cbn; intuition discriminate. Qed.
Lemma has_spec {A} (m : gmap bid A) b : has m b = false <-> ~ is_Some (m !! b).
Proof. unfold has. rewrite bool_decide_eq_false. tauto. Qed.
Lemma hasS_spec m b : hasS m b = false <-> ~ b ∈ m.
Proof. unfold hasS. rewrite bool_decide_eq_false. tauto. Qed.
Lemma directions_in dim d : d ∈ directions dim <-> d < dim.
Proof.
  unfold directions. rewrite elem_of_list_In, in_map_iff. split.
  - intros (x & <- & X). apply in_seq in X. lia.
  - intros X. exists (N.to_nat d). rewrite N2Nat.id. split; auto. apply in_seq. lia.
Qed.

Theorem C16_setup_accepts_exactly_compatible_registrations :
  forall (dim : N) (r : registry), setup_checks dim r = Done <-> compatible dim r.
Proof.
  intros dim r. unfold setup_checks. rewrite !and_then_done, !first_throw_done, !Forall_forall.
  assert (P : forall d, check_periodic r d = Done <->
     (periodic r d <> (invalid_id, invalid_id) ->
       fst (periodic r d) <> snd (periodic r d) /\
       forall b, b = fst (periodic r d) \/ b = snd (periodic r d) -> ~ has_velocity r b /\ ~ has_pressure r b /\ ~ has_symmetry r b)).
  { intros d. unfold check_periodic. destruct (periodic r d) as [i o]; cbn.
    destruct (N.eqb_spec i invalid_id) as [Ei|Ei]; [destruct (N.eqb_spec o invalid_id) as [Eo|Eo]|].
    { subst; cbn. split; auto. intros _ X; contradiction. }
    all: cbn; match goal with |- (if ?t then _ else _) = Done <-> _ => destruct t eqn:T end.
    all: rewrite ?andb_true_iff, ?negb_true_iff, ?has_spec, ?hasS_spec in T.
    all: destruct (N.eqb_spec i o) as [E|E]; cbn.
    all: split; intros X; try discriminate X; try reflexivity.
    all: try (intros _; split; [exact E|]; intros b [-> | ->]; unfold has_velocity, has_pressure, has_symmetry; tauto).
    all: exfalso.
    all: destruct (X ltac:(congruence)) as [Y Z]; try contradiction.
    all: apply andb_false_iff in T || idtac.
    all: pose proof (Z i (or_introl eq_refl)) as Zi; pose proof (Z o (or_intror eq_refl)) as Zo;
         unfold has_velocity, has_pressure, has_symmetry in Zi, Zo.
    all: assert (T' : (negb (has (open_p r) i) && negb (has (open_p r) o) && negb (has (dirichlet_u r) i) &&
           negb (has (dirichlet_u r) o) && negb (hasS (no_slip r) i) && negb (hasS (no_slip r) o) &&
           negb (hasS (symmetry r) i) && negb (hasS (symmetry r) o))%bool = true)
           by (rewrite !andb_true_iff, !negb_true_iff, !has_spec, !hasS_spec; tauto).
    all: apply andb_true_iff in T' as [T1 T2]; destruct T as [T|T]; congruence. }
  assert (S : forall b, check_symmetry r b = Done <-> ~ has_velocity r b /\ ~ has_pressure r b).
  { intros b. unfold check_symmetry. match goal with |- (if ?t then _ else _) = Done <-> _ => destruct t eqn:T end.
    - rewrite !andb_true_iff, !negb_true_iff, !has_spec, !hasS_spec in T.
      unfold has_velocity, has_pressure. tauto.
    - split; [discriminate|]. intros [Y Z]. exfalso. unfold has_velocity, has_pressure in *.
      assert (T' : (negb (has (open_p r) b) && negb (hasS (no_slip r) b) && negb (has (dirichlet_u r) b))%bool = true)
        by (rewrite !andb_true_iff, !negb_true_iff, !has_spec, !hasS_spec; tauto). congruence. }
  assert (O : forall b, check_not_open r b = Done <-> ~ has_pressure r b).
  { intros b. unfold check_not_open, has_pressure. destruct (has (open_p r) b) eqn:T; cbn.
    - split; [discriminate|]. intros X. apply has_spec in X. congruence.
    - apply has_spec in T. tauto. }
  assert (Fx : forall b, check_pressure_fix r b = Done <-> forall b', ~ has_pressure r b').
  { intros b. unfold check_pressure_fix. destruct (bool_decide_reflect (open_p r = ∅)) as [E|E].
    - split; auto. intros _ b' [f Y]. rewrite E, lookup_empty in Y. discriminate.
    - split; [discriminate|]. intros X. exfalso. apply E, map_eq. intros i. rewrite lookup_empty.
      destruct (open_p r !! i) eqn:Y; auto. exfalso. apply (X i). unfold has_pressure; rewrite Y; eauto. }
  setoid_rewrite P. setoid_rewrite S. setoid_rewrite O. setoid_rewrite Fx.
  setoid_rewrite directions_in. setoid_rewrite elem_of_elements. setoid_rewrite elem_of_dom.
  split.
  - intros (H1 & H2 & H3 & H4 & H5). constructor.
    + intros i o (d & Hd & E & Hn). destruct (H1 d Hd) as [X _]; rewrite E in *; auto.
    + intros i o b (d & Hd & E & Hn) Hb. destruct (H1 d Hd) as [_ X]; rewrite E in *; auto.
    + exact H2.
    + intros b [X|X]; auto.
    + intros b b' X. apply (H5 b); auto.
  - intros [H1 H2 H3 H4 H5]. split; [|split; [exact H3|split; [intros b X; apply H4; left; auto|split; [intros b X; apply H4; right; auto|eauto]]]].
    intros d Hd Hn. destruct (periodic r d) as [i o] eqn:E. cbn.
    assert (IP : is_periodic dim r i o) by (exists d; rewrite E; auto).
    split; [eauto|]. intros b Hb. eauto.
Qed.
Print Assumptions C16_setup_accepts_exactly_compatible_registrations.
Example C16_nonvacuous :
  setup_checks 2 (run 2 [SetVelocity 1 (Some (UserFun 0 2)) 1; SetPeriodic 0 5 6; SetOpenNormal 2 None 0;
                         SetNoSlip 3; SetSymmetry 4] empty_registry) = Done /\
  setup_checks 2 (run 2 [SetVelocity 1 (Some (UserFun 0 2)) 1; SetPeriodic 1 5 1] empty_registry) <> Done.
Proof. split; [vm_compute; reflexivity|]. vm_compute; discriminate. Qed.

(** Through the public interface normal-flux ids are open boundaries, so that the checks exclude
    velocity, symmetry and periodic conditions there as well. *)
Theorem C16_normal_flux_exclusive :
  forall (dim : N) (h : list call) (b : bid),
    let r := run dim h empty_registry in
    setup_checks dim r = Done -> b ∈ normal_flux r ->
    ~ has_velocity r b /\ ~ has_symmetry r b /\ (forall i o, is_periodic dim r i o -> b <> i /\ b <> o).
Proof.
  intros dim h b r Hs Hb. apply C16_setup_accepts_exactly_compatible_registrations in Hs.
  assert (Hp : has_pressure r b).
  { unfold has_pressure, r. rewrite op_spec. apply nf_spec in Hb as (c & Hc & f & ft & -> & Hf).
    revert Hc. generalize (since_clear h) as l. induction l as [|c l IH]; intros Hc; [apply elem_of_nil in Hc; contradiction|].
    cbn. apply elem_of_cons in Hc as [<-|Hc].
    - destruct (latest _ l); eauto. cbn. destruct f as [f|]; rewrite N.eqb_refl; [rewrite Hf|]; cbn; eauto.
    - destruct (latest (valid_pressure b) l); eauto. specialize (IH Hc). destruct IH; discriminate. }
  destruct Hs as [H1 H2 H3 H4 H5]. split; [|split].
  - intros X; exact (H4 b X Hp).
  - intros X; exact (proj2 (H3 b X) Hp).
  - intros i o X. split; intros E; destruct (H2 i o b X) as (_ & Y & _); auto.
Qed.
Print Assumptions C16_normal_flux_exclusive.

(** the velocity condition imposed at solve time: no-slip wins over a registered function *)
Theorem C16_imposed_velocity :
  forall (dim : N) (r : registry) (b : bid),
    (b ∈ no_slip r -> imposed_velocity dim r !! b = Some (ZeroFun dim)) /\
    (~ b ∈ no_slip r -> imposed_velocity dim r !! b = dirichlet_u r !! b).
Proof.
  intros dim r b. unfold imposed_velocity.
  apply (set_fold_ind_L (fun m X => (b ∈ X -> m !! b = Some (ZeroFun dim)) /\ (~ b ∈ X -> m !! b = dirichlet_u r !! b))).
  - split; [set_solver|auto].
  - intros x X m Hx [IH1 IH2]. destruct (decide (b = x)) as [->|Hn].
    + split; [intros _; apply lookup_insert|set_solver].
    + rewrite lookup_insert_ne by auto. split; intros Y; [apply IH1; set_solver|apply IH2; set_solver].
Qed.
Print Assumptions C16_imposed_velocity.

(** ** C18 *)
Fixpoint calls (l : list event) : list call :=
  match l with [] => [] | Register c :: t => c :: calls t | Advance :: t => calls t end.
Lemma run_events_registry dim l t : tp_registry (run_events dim l t) = run dim (calls l) (tp_registry t).
Proof. revert t; induction l as [|[c|] l IH]; intros t; cbn; auto. rewrite IH; reflexivity. Qed.
Lemma run_events_kind dim l t : tp_kind (run_events dim l t) = tp_kind t /\ tp_copy (run_events dim l t) = tp_copy t.
Proof. revert t; induction l as [|[c|] l IH]; intros t; cbn; auto. destruct (IH (MkTP (tp_kind t) (fst (exec dim c (tp_registry t))) (tp_copy t))); auto. Qed.
(** [imposed_after dim k l] is the Dirichlet map imposed on the level set function by a time step taken
    after the history [l] of registrations and time steps. *)
Theorem C18_fluid_types_reach_advection_partial :
  forall (dim : N) (l : list event) (b : bid),
    exists m, imposed_after dim OKZMatrix l = Some m /\ m !! b = latest (valid_fluid dim b) (calls l).
Proof.
  intros dim l b. unfold imposed_after. cbn.
  destruct (run_events_kind dim l (construct_two_phase OKZMatrix)) as [-> _]. cbn.
  eexists; split; [reflexivity|]. rewrite run_events_registry. apply ft_spec.
Qed.
Print Assumptions C18_fluid_types_reach_advection_partial.
(** The matrix-free solver never imposes any registered fluid type. *)
Theorem C18_fluid_types_reach_advection_refuted :
  (forall (dim : N) (l : list event), imposed_after dim OKZ l = Some ∅) /\
  exists dim l b, latest (valid_fluid dim b) (calls l) = Some (ConstFun 1 1).
Proof.
  split.
  - intros dim l. unfold imposed_after. cbn.
    destruct (run_events_kind dim l (construct_two_phase OKZ)) as [-> ->]. reflexivity.
  - exists 2, [Register (SetVelocity 1 (Some (UserFun 0 2)) 1)], 1. reflexivity.
Qed.
Print Assumptions C18_fluid_types_reach_advection_refuted.

(** ** C52: the pressure degree of freedom fixed by fix_pressure_constant *)
Open Scope Z_scope.
(** a process with its sorted boundary dofs and the set of dofs already constrained *)
Definition wf_proc (n_dofs : Z) (p : (Z -> bool) * list Z) : Prop :=
  Sorted.StronglySorted Z.lt (snd p) /\ Forall (fun i => 0 <= i < n_dofs) (snd p).
Definition free_on (p : (Z -> bool) * list Z) (i : Z) : Prop := In i (snd p) /\ fst p i = false.

Lemma existsb_free (p : (Z -> bool) * list Z) :
  existsb (fun i => negb (fst p i)) (snd p) = true <-> exists i, free_on p i.
Proof.
  rewrite existsb_exists. unfold free_on. split; intros (i & X & Y); exists i; rewrite ?negb_true_iff in *; auto.
Qed.
Lemma fold_max_ge (l : list Z) x : In x l -> x <= fold_right Z.max INT_MIN l.
Proof. induction l; cbn; [tauto|]. intros [->|X]; [lia|]. specialize (IHl X). lia. Qed.
Lemma fold_max_in (l : list Z) : fold_right Z.max INT_MIN l = INT_MIN \/ In (fold_right Z.max INT_MIN l) l.
Proof.
  induction l; cbn; auto. destruct (Z.max_spec a (fold_right Z.max INT_MIN l)) as [[_ ->]|[_ ->]]; [tauto|auto].
Qed.
(** The setup throws exactly if no process knows a free pressure dof on the boundary; otherwise the
    chosen index is the least "lowest boundary dof" among the processes with a free boundary dof. It is
    the lowest free one if on every process the lowest boundary dof is free. *)
Theorem C52_fixed_pressure_dof_partial :
  forall (n_dofs : Z) (procs : list ((Z -> bool) * list Z)),
    n_dofs <= 2147483648 -> Forall (wf_proc n_dofs) procs ->
    (pressure_dof n_dofs procs = None <-> ~ exists p i, In p procs /\ free_on p i) /\
    (forall m, pressure_dof n_dofs procs = Some m -> exists p, In p procs /\ In m (snd p)) /\
    ((forall p i t, In p procs -> snd p = i :: t -> fst p i = false) ->
     forall m, pressure_dof n_dofs procs = Some m ->
       (exists p, In p procs /\ free_on p m) /\ (forall p i, In p procs -> free_on p i -> m <= i)).
Proof.
  intros n procs Hn Hwf. unfold pressure_dof, chosen_index.
  set (L := map (fun p => local_index (fst p) (snd p)) procs).
  assert (HL : forall x, In x L -> x = INT_MIN \/ exists p, In p procs /\ exists i t, snd p = i :: t /\ x = - i /\ exists j, free_on p j).
  { intros x Hx. apply in_map_iff in Hx as (p & <- & Hp). unfold local_index.
    destruct (existsb _ (snd p)) eqn:E; auto. destruct (snd p) as [|i t] eqn:El; auto.
    right. exists p; split; auto. exists i, t. repeat split; auto. apply existsb_free. rewrite El; auto. }
  assert (HG : forall p i, In p procs -> free_on p i -> exists j t, snd p = j :: t /\ In (- j) L /\ j <= i /\ 0 <= j < n).
  { intros p i Hp Hf. pose proof (proj1 (List.Forall_forall _ _) Hwf p Hp) as [Hs Hr].
    assert (E : existsb (fun i => negb (fst p i)) (snd p) = true) by (apply existsb_free; eauto).
    destruct (snd p) as [|j t] eqn:El; [discriminate|]. exists j, t. split; auto. split.
    - apply in_map_iff. exists p. split; auto. unfold local_index. rewrite El, E; auto.
    - apply List.Forall_forall with (x := j) in Hr as Hj; [|left; auto].
      split; auto. destruct Hf as [Hf _]. rewrite El in Hf. destruct Hf as [->|Hf]; [lia|].
      inversion Hs as [|? ? _ Hall]; subst. rewrite List.Forall_forall in Hall. specialize (Hall _ Hf). lia. }
  assert (HM := fold_max_in L). set (M := fold_right Z.max INT_MIN L) in *.
  assert (HI : M = INT_MIN <-> ~ exists p i, In p procs /\ free_on p i).
  { split.
    - intros E (p & i & Hp & Hf). destruct (HG p i Hp Hf) as (j & t & _ & Hj & _ & Hr).
      apply fold_max_ge in Hj. fold M in Hj. unfold INT_MIN in *. lia.
    - intros X. destruct HM as [?|HM]; auto. destruct (HL _ HM) as [?|(p & Hp & i & t & _ & _ & j & Hf)]; auto.
      exfalso; eauto. }
  split; [|split].
  - destruct (Z.ltb_spec (- M) n) as [Hlt|Hge].
    + split; [discriminate|]. intros X. apply HI in X. rewrite X in Hlt. unfold INT_MIN in Hlt. lia.
    + split; auto. intros _. apply HI. destruct HM as [?|HM]; auto.
      destruct (HL _ HM) as [?|(p & Hp & i & t & El & E & j & Hf)]; auto. exfalso.
      destruct (HG p j Hp Hf) as (j' & t' & El' & _ & _ & Hr). rewrite El in El'; injection El' as -> ->. lia.
  - intros m. destruct (Z.ltb_spec (- M) n) as [Hlt|Hge]; [|discriminate]. intros [= <-].
    destruct HM as [HM|HM]; [rewrite HM in Hlt; unfold INT_MIN in Hlt; lia|].
    destruct (HL _ HM) as [E|(p & Hp & i & t & El & E & j & Hf)]; [rewrite E in Hlt; unfold INT_MIN in Hlt; lia|].
    exists p; split; auto. rewrite El, E. left. lia.
  - intros Hfree m. destruct (Z.ltb_spec (- M) n) as [Hlt|Hge]; [|discriminate]. intros [= <-].
    destruct HM as [HM|HM]; [rewrite HM in Hlt; unfold INT_MIN in Hlt; lia|].
    destruct (HL _ HM) as [E|(p & Hp & i & t & El & E & j & Hf)]; [rewrite E in Hlt; unfold INT_MIN in Hlt; lia|].
    split.
    + exists p; split; auto. rewrite E, Z.opp_involutive. split; [rewrite El; left; auto|eauto].
    + intros p' i' Hp' Hf'. destruct (HG p' i' Hp' Hf') as (j' & t' & El' & Hj' & Hle & _).
      apply fold_max_ge in Hj'. fold M in Hj'. lia.
Qed.
Print Assumptions C52_fixed_pressure_dof_partial.
Example C52_nonvacuous :
  pressure_dof 100 [(fun _ => false, [7; 9]); (fun i => i =? 30, [12; 30]); (fun _ => false, [])] = Some 7.
Proof. reflexivity. Qed.
(** If the lowest boundary dof is already constrained (a hanging node, say) but another is free, an
    already constrained dof is chosen and the free dofs stay free. *)
Theorem C52_fixed_pressure_dof_refuted :
  exists (n_dofs m : Z) (procs : list ((Z -> bool) * list Z)),
    Forall (wf_proc n_dofs) procs /\ (exists p i, In p procs /\ free_on p i) /\
    pressure_dof n_dofs procs = Some m /\ (forall p, In p procs -> fst p m = true).
Proof.
  exists 10, 2, [(fun i => i =? 2, [2; 5])]. split.
  { repeat constructor; lia. }
  split. { exists (fun i => i =? 2, [2; 5]), 5. split; [left; auto|]. split; [right; left; auto|reflexivity]. }
  split; [reflexivity|]. intros p [<-|[]]. reflexivity.
Qed.
Print Assumptions C52_fixed_pressure_dof_refuted.
