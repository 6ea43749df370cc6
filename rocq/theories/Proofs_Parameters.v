(** * Lemmas about the parameter model *)
From Coq Require Import ZArith QArith Reals Bool List String Ascii Lia Lra.
From Verif Require Import Num Model_TimeStepping Model_Parameters Spec_Parameters.
Import ListNotations.
Open Scope string_scope.

Ltac inv_parse H :=
  match type of H with
  | bind (if ?b then Ok tt else Err _) _ = Ok _ =>
      let E := fresh "A" in destruct b eqn:E; cbn [bind] in H; [|discriminate H]
  | bind (?g ?d ?k) _ = Ok _ =>
      let E := fresh "G" in let x := fresh "x" in
      destruct (g d k) as [x|] eqn:E; cbn [bind] in H; [|discriminate H]
  | bind (?g ?k) _ = Ok _ =>
      let E := fresh "G" in let x := fresh "x" in
      destruct (g k) as [x|] eqn:E; cbn [bind] in H; [|discriminate H]
  end.

Section P.
Context {N : Num}.

Lemma parse_type_stokes t ty : parse_type t = Ok ty -> (is_stokes ty = true <-> t = "stokes").
Proof.
  unfold parse_type. destruct (String.eqb_spec t "stokes") as [->|Hn].
  - intros E; inversion E; subst; cbn; tauto.
  - repeat match goal with |- context [if ?b then _ else _] => destruct b end;
      intros E; inversion E; subst; cbn; split; intros; try discriminate; contradiction.
Qed.

(** everything that parse_parameters guarantees *)
Lemma parse_spec (d : db N) fp : parse_parameters d = Ok fp ->
  exists t r_ns r_tp r_df m_ns m_tp,
   get_text d "Navier-Stokes/physical type" = Ok t /\
   get_double d "Navier-Stokes/density" = Ok r_ns /\ get_double d "Two phase/density" = Ok r_tp /\
   get_double d "Two phase/density difference" = Ok r_df /\
   get_double d "Navier-Stokes/viscosity" = Ok m_ns /\ get_double d "Two phase/viscosity" = Ok m_tp /\
   fp_density fp = (if String.eqb t "stokes" then nlit (0#1) else if positive r_tp then r_tp else r_ns) /\
   fp_density_diff fp = (if String.eqb t "stokes" then nlit (0#1) else r_df) /\
   fp_viscosity fp = (if positive m_tp then m_tp else m_ns).
Proof.
  unfold parse_parameters; intros H. repeat (inv_parse H; cbv zeta in H). inversion H; subst; clear H.
  cbn [fp_density fp_density_diff fp_viscosity].
  do 6 eexists. repeat (split; [eassumption|]).
  match goal with G : parse_type ?t = Ok ?ty |- _ =>
    pose proof (parse_type_stokes t ty G) as PT end.
  match goal with |- context [String.eqb ?t "stokes"] => destruct (String.eqb_spec t "stokes") as [E|E] end.
  - apply PT in E. rewrite E. repeat split; reflexivity.
  - destruct (is_stokes _) eqn:I; [exfalso; apply E, PT; reflexivity|]. repeat split; reflexivity.
Qed.

Lemma parse_constraints (d : db N) fp : parse_parameters d = Ok fp ->
  exists deg vtk tau eps dl smin sstart smax,
    get_integer d "Navier-Stokes/velocity degree" = Ok deg /\
    get_integer d "Output options/output vtk files" = Ok vtk /\
    get_double d "Navier-Stokes/Solver/tau grad div" = Ok tau /\
    get_double d "Two phase/epsilon" = Ok eps /\
    get_double d "Two phase/diffusion length" = Ok dl /\
    get_double d "Time stepping/min step size" = Ok smin /\
    get_double d "Time stepping/step size" = Ok sstart /\
    get_double d "Time stepping/max step size" = Ok smax /\
    fp_velocity_degree fp = to_unsigned deg /\ (2 <= fp_velocity_degree fp)%Z /\
    fp_print_solution_fields fp = (if (2 <? to_unsigned vtk)%Z then 1 else to_unsigned vtk)%Z /\
    fp_tau_grad_div fp = tau /\ nonneg tau = true /\
    fp_epsilon fp = eps /\ positive eps = true /\
    fp_diffusion_length fp = dl /\ positive dl = true /\
    fp_time_step_size_start fp = sstart /\
    fp_time_step_size_min fp = (if nltb sstart smin then sstart else smin) /\
    fp_time_step_size_max fp = (if nltb sstart smin then sstart else smax).
Proof.
  unfold parse_parameters; intros H. repeat (inv_parse H; cbv zeta in H). inversion H; subst; clear H.
  cbn. do 8 eexists. repeat (split; [first [eassumption|reflexivity]|]).
  apply Z.ltb_lt in A. repeat split; auto. lia.
Qed.

Lemma parse_enums (d : db N) fp : parse_parameters d = Ok fp ->
  exists t l u p s f,
    get_text d "Navier-Stokes/physical type" = Ok t /\
    get_text d "Navier-Stokes/Solver/linearization scheme" = Ok l /\
    get_text d "Navier-Stokes/Solver/lin velocity preconditioner" = Ok u /\
    get_text d "Navier-Stokes/Solver/lin pressure mass preconditioner" = Ok p /\
    get_text d "Time stepping/scheme" = Ok s /\
    get_text d "Navier-Stokes/formulation convective term momentum balance" = Ok f /\
    parse_type t = Ok (fp_physical_type fp) /\
    parse_linearization l = Ok (fp_linearization fp) /\
    parse_uprec u = Ok (fp_precondition_velocity fp) /\
    parse_pprec p = fp_precondition_pressure fp /\
    parse_scheme s = Ok (fp_time_step_scheme fp) /\
    parse_beta f = fp_beta fp.
Proof.
  unfold parse_parameters; intros H. repeat (inv_parse H; cbv zeta in H). inversion H; subst; clear H.
  cbn. do 6 eexists. repeat (split; [first [eassumption|reflexivity]|]). reflexivity.
Qed.

(** accepted files: every declared entry has a value matching its pattern *)
Lemma declared_default_ok k (v : value N) p : declared k = Some (v, p) -> matches p v = true.
Proof.
  unfold declared. 
  assert (G : forallb (fun e : string * value N * pattern =>
              let '(_, v, p) := e in matches p v) declarations = true) by reflexivity.
  revert G. generalize (@declarations N) as l. induction l as [|[[k' v'] p'] l IH]; cbn; [discriminate|].
  intros G; apply andb_true_iff in G as [G1 G2].
  destruct (String.eqb k k'); [intros E; inversion E; subst; exact G1 | auto].
Qed.

Lemma check_entries_ok skip (f : pfile N) k (v : value N) p :
  check_entries skip f = Ok tt -> declared k = Some (v, p) ->
  forall w, last_assign f k = Some w -> matches p w = true.
Proof.
  intros H Hd. induction f as [|[k' v'] f IH]; cbn [last_assign check_entries] in *; [discriminate|].
  intros w.
  destruct (last_assign f k) eqn:E.
  - intros X; inversion X; subst. apply IH; auto.
    destruct (declared k') as [[? p']|]; [destruct (matches p' v'); [auto|discriminate]|].
    destruct skip; [auto|discriminate].
  - destruct (String.eqb_spec k k') as [->|]; [|discriminate]. intros X; inversion X; subst.
    rewrite Hd in H. destruct (matches p w); [reflexivity|discriminate].
Qed.

Lemma read_db_matches skip (f : pfile N) k (v : value N) p :
  check_entries skip f = Ok tt -> declared k = Some (v, p) ->
  exists w, read_db f k = Some w /\ matches p w = true.
Proof.
  intros H Hd. unfold read_db. rewrite Hd.
  destruct (last_assign f k) eqn:E.
  - exists v0; split; auto. eapply check_entries_ok; eauto.
  - exists v; split; auto. eapply declared_default_ok; eauto.
Qed.

Lemma get_int_ok skip (f : pfile N) k (v : value N) : check_entries skip f = Ok tt ->
  declared k = Some (v, PInteger) ->
  exists z, get_integer (read_db f) k = Ok z /\ (-2147483648 <= z <= 2147483647)%Z.
Proof.
  intros H Hd. destruct (read_db_matches skip f k v _ H Hd) as (w & A & B).
  unfold get_integer. rewrite A. destruct w; try discriminate. cbn in B.
  apply andb_true_iff in B as [B1 B2]. apply Z.leb_le in B1, B2. eauto.
Qed.
Lemma get_dbl_ok skip (f : pfile N) k (v : value N) : check_entries skip f = Ok tt ->
  declared k = Some (v, PDouble) -> exists z, get_double (read_db f) k = Ok z.
Proof.
  intros H Hd. destruct (read_db_matches skip f k v _ H Hd) as (w & A & B).
  unfold get_double. rewrite A. destruct w; try discriminate. eauto.
Qed.
Lemma get_sel_ok skip (f : pfile N) k (v : value N) l : check_entries skip f = Ok tt ->
  declared k = Some (v, PSelection l) -> exists s, get_text (read_db f) k = Ok s /\ In s l.
Proof.
  intros H Hd. destruct (read_db_matches skip f k v _ H Hd) as (w & A & B).
  unfold get_text. rewrite A. destruct w; try discriminate. cbn in B.
  apply existsb_exists in B as (x & B1 & B2). apply String.eqb_eq in B2. subst. eauto.
Qed.
Lemma get_any_ok skip (f : pfile N) k (v : value N) : check_entries skip f = Ok tt ->
  declared k = Some (v, PAnything) -> exists s, get_text (read_db f) k = Ok s.
Proof.
  intros H Hd. destruct (read_db_matches skip f k v _ H Hd) as (w & A & B).
  unfold get_text. rewrite A. destruct w; try discriminate. eauto.
Qed.

Ltac get_one H :=
  lazymatch goal with
  | |- exists fp, bind (if ?b then _ else _) _ = Ok fp =>
      lazymatch goal with E : b = true |- _ => rewrite E; cbn [bind] end
  | |- exists fp, bind (get_integer (read_db ?f) ?k) _ = Ok fp =>
      try lazymatch goal with E : get_integer (read_db f) k = Ok _ |- _ => rewrite E; cbn [bind] end;
      try (let z := fresh "z" in let E := fresh "E" in
       destruct (get_int_ok _ f k _ H eq_refl) as (z & E & _); rewrite E; cbn [bind])
  | |- exists fp, bind (get_double (read_db ?f) ?k) _ = Ok fp =>
      try lazymatch goal with E : get_double (read_db f) k = Ok _ |- _ => rewrite E; cbn [bind] end;
      try (let z := fresh "z" in let E := fresh "E" in
       destruct (get_dbl_ok _ f k _ H eq_refl) as (z & E); rewrite E; cbn [bind])
  | |- exists fp, bind (get_text (read_db ?f) ?k) _ = Ok fp =>
      (let z := fresh "s" in let E := fresh "E" in let I := fresh "I" in
       destruct (get_sel_ok _ f k _ _ H eq_refl) as (z & E & I); rewrite E; cbn [bind])
      || (let z := fresh "s" in let E := fresh "E" in
       destruct (get_any_ok _ f k _ H eq_refl) as (z & E); rewrite E; cbn [bind])
  | |- exists fp, bind (_ ?s) _ = Ok fp =>
      lazymatch goal with I : In s _ |- _ =>
        let x := fresh "x" in let E := fresh "E" in
        lazymatch goal with |- exists fp, bind (?g s) _ = _ =>
          assert (E : exists x, g s = Ok x) by
            (clear -I; cbn [In] in I; repeat destruct I as [<-|I]; try contradiction; cbn; eauto);
          destruct E as [x E]; rewrite E; cbn [bind] end end
  end; cbv zeta.

Lemma parse_complete skip (f : pfile N) :
  check_entries skip f = Ok tt ->
  forall deg tau eps dl,
    get_integer (read_db f) "Navier-Stokes/velocity degree" = Ok deg ->
    get_double (read_db f) "Navier-Stokes/Solver/tau grad div" = Ok tau ->
    get_double (read_db f) "Two phase/epsilon" = Ok eps ->
    get_double (read_db f) "Two phase/diffusion length" = Ok dl ->
    (1 <? to_unsigned deg)%Z = true -> nonneg tau = true -> positive eps = true ->
    positive dl = true ->
    exists fp, parse_parameters (read_db f) = Ok fp.
Proof.
  intros H deg tau eps dl G1 G2 G3 G4 C1 C2 C3 C4.
  unfold parse_parameters. repeat get_one H. eauto.
Qed.
End P.

(** file names *)
Lemma after_last_dot_spec s :
  (existsb (Ascii.eqb ".") (list_ascii_of_string s) = false -> after_last_dot s = s) /\
  (existsb (Ascii.eqb ".") (list_ascii_of_string s) = true ->
     exists b, s = b ++ String "." (after_last_dot s)) /\
  (existsb (Ascii.eqb ".") (list_ascii_of_string (after_last_dot s)) = false).
Proof.
  induction s as [|c s (IH1 & IH2 & IH3)]; cbn [after_last_dot list_ascii_of_string existsb].
  - repeat split; auto. discriminate.
  - destruct (existsb (Ascii.eqb ".") (list_ascii_of_string s)) eqn:E.
    + rewrite orb_true_r. split; [discriminate|]. split.
      * intros _. destruct (IH2 eq_refl) as [b Hb]. exists (String c b). cbn. rewrite Hb at 1. reflexivity.
      * exact IH3.
    + rewrite orb_false_r. rewrite Ascii.eqb_sym. destruct (Ascii.eqb_spec c ".") as [->|Hc].
      * split; [discriminate|]. split; [|exact E]. intros _. exists "". reflexivity.
      * split; auto. split; [discriminate|]. cbn [list_ascii_of_string existsb].
        rewrite E, orb_false_r. apply Ascii.eqb_neq. congruence.
Qed.

Lemma nodot_app_inv b1 b2 e1 e2 :
  existsb (Ascii.eqb ".") (list_ascii_of_string e1) = false ->
  existsb (Ascii.eqb ".") (list_ascii_of_string e2) = false ->
  b1 ++ String "." e1 = b2 ++ String "." e2 -> e1 = e2.
Proof.
  intros N1 N2. revert b2; induction b1 as [|c b1 IH]; intros b2 H.
  - destruct b2 as [|c b2]; cbn in H; [inversion H; auto|].
    inversion H; subst. exfalso. clear -N1.
    assert (X : existsb (Ascii.eqb ".") (list_ascii_of_string (b2 ++ String "." e2)) = true).
    { induction b2 as [|c b2 IH]; cbn; auto. cbn in N1. apply orb_false_iff in N1 as [_ N1].
      rewrite IH; auto. apply orb_true_r. }
    congruence.
  - destruct b2 as [|c2 b2]; cbn in H.
    + inversion H; subst. exfalso. clear -N2.
      assert (X : existsb (Ascii.eqb ".") (list_ascii_of_string (b1 ++ String "." e1)) = true).
      { induction b1 as [|c b1 IH]; cbn; auto. cbn in N2. apply orb_false_iff in N2 as [_ N2].
        rewrite IH; auto. apply orb_true_r. }
      congruence.
    + inversion H; subst. eapply IH; eauto.
Qed.

Lemma after_last_dot_iff s e :
  existsb (Ascii.eqb ".") (list_ascii_of_string e) = false ->
  (after_last_dot s = e <-> s = e \/ exists b, s = b ++ String "." e).
Proof.
  intros He. destruct (after_last_dot_spec s) as (A & B & C). split.
  - intros E. destruct (existsb (Ascii.eqb ".") (list_ascii_of_string s)) eqn:X.
    + right. destruct (B eq_refl) as [b Hb]. exists b. rewrite <- E. exact Hb.
    + left. rewrite <- E. symmetry; auto.
  - intros [->|[b Hb]]; [auto|].
    destruct (existsb (Ascii.eqb ".") (list_ascii_of_string s)) eqn:X.
    + destruct (B eq_refl) as [b' Hb']. rewrite Hb in Hb'. symmetry.
      eapply nodot_app_inv; [exact He|exact C|]. rewrite Hb' at 1. rewrite <- Hb. reflexivity.
    + exfalso. subst s. clear -X. induction b as [|c b IH]; cbn in X; [discriminate|].
      apply orb_false_iff in X as [_ X]. auto.
Qed.

Section C.
Context {N : Num}.
Lemma construct_inv (fs : filesystem N) name fp : construct fs name = Ok fp ->
  exists f skip, fs name = Some (Some f) /\ check_entries skip f = Ok tt /\
    parse_parameters (read_db f) = Ok fp /\
    ((skip = true /\ after_last_dot name = "json") \/ (skip = false /\ after_last_dot name = "prm")).
Proof.
  unfold construct, parse_file. destruct (fs name) as [[f|]|] eqn:E; [| |discriminate].
  - destruct (String.eqb_spec (after_last_dot name) "json") as [J|J].
    + destruct (check_entries true f) as [[]|] eqn:C; cbn [bind]; [|discriminate]. intros H.
      exists f, true. do 3 (split; [auto|]). left; auto.
    + destruct (String.eqb_spec (after_last_dot name) "prm") as [P|P]; [|discriminate].
      destruct (check_entries false f) as [[]|] eqn:C; cbn [bind]; [|discriminate]. intros H.
      exists f, false. do 3 (split; [auto|]). right; auto.
  - destruct (String.eqb _ "json"); [discriminate|]. destruct (String.eqb _ "prm"); discriminate.
Qed.
End C.

Lemma parse_type_inv t ty : parse_type t = Ok ty ->
  t = match ty with stokes => "stokes" | incompressible => "incompressible"
        | incompressible_stationary => "incompressible stationary" end.
Proof.
  unfold parse_type. destruct (String.eqb_spec t "stokes"); [intros [= <-]; auto|].
  destruct (String.eqb_spec t "incompressible"); [intros [= <-]; auto|].
  destruct (String.eqb_spec t "incompressible stationary"); [intros [= <-]; auto|discriminate].
Qed.
Lemma parse_linearization_inv t ty : parse_linearization t = Ok ty ->
  t = match ty with
        | coupled_implicit_newton => "coupled implicit Newton"
        | coupled_implicit_picard => "coupled implicit Picard"
        | coupled_velocity_semi_implicit => "coupled velocity semi-implicit"
        | coupled_velocity_explicit => "coupled velocity explicit"
        | projection => "projection" end.
Proof.
  unfold parse_linearization. destruct (String.eqb_spec t "coupled implicit Newton"); [intros [= <-]; auto|].
  destruct (String.eqb_spec t "coupled implicit Picard"); [intros [= <-]; auto|].
  destruct (String.eqb_spec t "coupled velocity semi-implicit"); [intros [= <-]; auto|].
  destruct (String.eqb_spec t "coupled velocity explicit"); [intros [= <-]; auto|].
  destruct (String.eqb_spec t "projection"); [intros [= <-]; auto|discriminate].
Qed.
Lemma parse_uprec_inv t ty : parse_uprec t = Ok ty ->
  t = match ty with u_ilu => "ilu" | u_ilu_scalar => "ilu scalar"
        | u_amg_linear => "amg linear" | u_amg => "amg" end.
Proof.
  unfold parse_uprec. destruct (String.eqb_spec t "ilu"); [intros [= <-]; auto|].
  destruct (String.eqb_spec t "ilu scalar"); [intros [= <-]; auto|].
  destruct (String.eqb_spec t "amg linear"); [intros [= <-]; auto|].
  destruct (String.eqb_spec t "amg"); [intros [= <-]; auto|discriminate].
Qed.
Lemma parse_scheme_inv t ty : parse_scheme t = Ok ty ->
  t = match ty with implicit_euler => "implicit_euler"
        | explicit_euler => "explicit_euler" | crank_nicolson => "crank_nicolson"
        | bdf_2 => "bdf_2" end.
Proof.
  unfold parse_scheme. destruct (String.eqb_spec t "implicit_euler"); [intros [= <-]; auto|].
  destruct (String.eqb_spec t "explicit_euler"); [intros [= <-]; auto|].
  destruct (String.eqb_spec t "crank_nicolson"); [intros [= <-]; auto|].
  destruct (String.eqb_spec t "bdf_2"); [intros [= <-]; auto|discriminate].
Qed.

Lemma enumerations (N : Num) (fs : filesystem N) (name : string) (fp : flow_params N) :
    construct fs name = Ok fp ->
    exists f, fs name = Some (Some f) /\
      read_db f "Navier-Stokes/physical type" = Some (VText
        match fp_physical_type fp with stokes => "stokes" | incompressible => "incompressible"
        | incompressible_stationary => "incompressible stationary" end) /\
      read_db f "Navier-Stokes/Solver/linearization scheme" = Some (VText
        match fp_linearization fp with
        | coupled_implicit_newton => "coupled implicit Newton"
        | coupled_implicit_picard => "coupled implicit Picard"
        | coupled_velocity_semi_implicit => "coupled velocity semi-implicit"
        | coupled_velocity_explicit => "coupled velocity explicit"
        | projection => "projection" end) /\
      read_db f "Navier-Stokes/Solver/lin velocity preconditioner" = Some (VText
        match fp_precondition_velocity fp with u_ilu => "ilu" | u_ilu_scalar => "ilu scalar"
        | u_amg_linear => "amg linear" | u_amg => "amg" end) /\
      read_db f "Navier-Stokes/Solver/lin pressure mass preconditioner" = Some (VText
        match fp_precondition_pressure fp with p_mass_ilu => "ilu" | p_mass_diag => "diagonal" end) /\
      read_db f "Time stepping/scheme" = Some (VText
        match fp_time_step_scheme fp with implicit_euler => "implicit_euler"
        | explicit_euler => "explicit_euler" | crank_nicolson => "crank_nicolson"
        | bdf_2 => "bdf_2" end) /\
      (exists form, read_db f "Navier-Stokes/formulation convective term momentum balance"
                    = Some (VText form) /\
         ((form = "conservative" /\ fp_beta fp = nlit (1#1)) \/
          (form = "convective" /\ fp_beta fp = nlit (0#1)) \/
          (form = "skew-symmetric" /\ fp_beta fp = nlit (5#10)))).
Proof.
  intros H. destruct (construct_inv fs name fp H) as (f & skip & A & B & C & _).
  exists f; split; [exact A|].
  destruct (parse_enums _ _ C) as (t & l & u & p & s & fo & G1 & G2 & G3 & G4 & G5 & G6 & P1 & P2 & P3 & P4 & P5 & P6).
  destruct (get_sel_ok skip f "Navier-Stokes/Solver/lin pressure mass preconditioner" _ _ B eq_refl) as (p' & Y1 & Y2).
  rewrite G4 in Y1; inversion Y1; subst p'.
  destruct (get_sel_ok skip f "Navier-Stokes/formulation convective term momentum balance" _ _ B eq_refl) as (f' & Z1 & Z2).
  rewrite G6 in Z1; inversion Z1; subst f'.
  unfold get_text in *.
  destruct (read_db f "Navier-Stokes/physical type") as [[]|]; try discriminate.
  destruct (read_db f "Navier-Stokes/Solver/linearization scheme") as [[]|]; try discriminate.
  destruct (read_db f "Navier-Stokes/Solver/lin velocity preconditioner") as [[]|]; try discriminate.
  destruct (read_db f "Navier-Stokes/Solver/lin pressure mass preconditioner") as [[]|]; try discriminate.
  destruct (read_db f "Time stepping/scheme") as [[]|]; try discriminate.
  destruct (read_db f "Navier-Stokes/formulation convective term momentum balance") as [[]|]; try discriminate.
  inversion G1; inversion G2; inversion G3; inversion G4; inversion G5; inversion G6; subst.
  split; [clear -P1|split; [clear -P2|split; [clear -P3|split; [clear -P4 Y2|split; [clear -P5|]]]]].
  - apply parse_type_inv in P1. congruence.
  - apply parse_linearization_inv in P2. congruence.
  - apply parse_uprec_inv in P3. congruence.
  - rewrite <- P4. destruct Y2 as [<-|[<-|[]]]; reflexivity.
  - apply parse_scheme_inv in P5. congruence.
  - eexists; split; [reflexivity|]. rewrite <- P6.
    destruct Z2 as [<-|[<-|[<-|[]]]]; cbn; auto.
Qed.

Lemma only_rejections (N : Num) (fs : filesystem N) (name : string) (f : pfile N) (skip : bool) :
    fs name = Some (Some f) ->
    (skip = true /\ after_last_dot name = "json" \/ skip = false /\ after_last_dot name = "prm") ->
    check_entries skip f = Ok tt ->
    (exists fp, construct fs name = Ok fp) \/
    (exists z, read_db f "Navier-Stokes/velocity degree" = Some (VInt z) /\ (0 <= z <= 1)%Z) \/
    (exists x, read_db f "Navier-Stokes/Solver/tau grad div" = Some (VDouble x) /\ nonneg x = false) \/
    (exists x, read_db f "Two phase/epsilon" = Some (VDouble x) /\ positive x = false) \/
    (exists x, read_db f "Two phase/diffusion length" = Some (VDouble x) /\ positive x = false).
Proof.
  intros A E B.
  assert (C : construct fs name = parse_parameters (read_db f)).
  { unfold construct, parse_file. rewrite A. destruct E as [[-> E]|[-> E]]; rewrite E; cbn [String.eqb Ascii.eqb];
      rewrite B; reflexivity. }
  rewrite C.
  destruct (get_int_ok skip f "Navier-Stokes/velocity degree" _ B eq_refl) as (deg & G1 & R1).
  destruct (get_dbl_ok skip f "Navier-Stokes/Solver/tau grad div" _ B eq_refl) as (tau & G2).
  destruct (get_dbl_ok skip f "Two phase/epsilon" _ B eq_refl) as (eps & G3).
  destruct (get_dbl_ok skip f "Two phase/diffusion length" _ B eq_refl) as (dl & G4).
  destruct (Z.ltb_spec 1 (to_unsigned deg)) as [D|D].
  - destruct (nonneg tau) eqn:T; [destruct (positive eps) eqn:P; [destruct (positive dl) eqn:Q|]|].
    + left. apply Z.ltb_lt in D. eapply parse_complete; eauto.
    + do 4 right. exists dl. unfold get_double in G4.
      destruct (read_db f "Two phase/diffusion length") as [[]|]; try discriminate.
      inversion G4; subst; auto.
    + do 3 right; left. exists eps. unfold get_double in G3.
      destruct (read_db f "Two phase/epsilon") as [[]|]; try discriminate.
      inversion G3; subst; auto.
    + do 2 right; left. exists tau. unfold get_double in G2.
      destruct (read_db f "Navier-Stokes/Solver/tau grad div") as [[]|]; try discriminate.
      inversion G2; subst; auto.
  - right; left. exists deg. unfold get_integer in G1.
    destruct (read_db f "Navier-Stokes/velocity degree") as [[]|]; try discriminate.
    inversion G1; subst; split; auto. unfold to_unsigned in D.
    destruct (Z_lt_le_dec deg 0) as [L|L].
    + exfalso. replace (deg mod 4294967296)%Z with (deg + 4294967296)%Z in D; [lia|].
      apply Z.mod_unique with (-1)%Z; lia.
    + rewrite Z.mod_small in D by lia. lia.
Qed.

Lemma undeclared_rejected (N : Num) (fs : filesystem N) (base : string) (f : pfile N) k v :
    fs (base ++ ".prm") = Some (Some f) -> In (k, v) f -> declared (N:=N) k = None ->
    forall fp, construct fs (base ++ ".prm") <> Ok fp.
Proof.
  intros A I D fp H. destruct (construct_inv fs _ fp H) as (f' & skip & A' & B & C & E).
  rewrite A in A'; inversion A'; subst f'.
  assert (X : after_last_dot (base ++ ".prm") = "prm").
  { apply after_last_dot_iff; auto. right. exists base. reflexivity. }
  rewrite X in E. destruct E as [[_ E]|[-> _]]; [discriminate|].
  clear -B I D. induction f as [|[k' v'] f IH]; [contradiction|].
  cbn [check_entries] in B. destruct I as [I|I].
  - inversion I; subst. rewrite D in B. discriminate.
  - apply IH; auto. destruct (declared k') as [[? p]|]; [|discriminate].
    destruct (matches p v'); [auto|discriminate].
Qed.

(** entries *)
Lemma last_assign_find (N : Num) (f : pfile N) k :
  last_assign f k = option_map snd (find (fun e => String.eqb (fst e) k) (rev f)).
Proof.
  induction f as [|[k' v] f IH]; [reflexivity|]. cbn [last_assign rev]. rewrite IH. clear IH.
  generalize (rev f). intros l. induction l as [|[k2 v2] l IH]; cbn [find app fst].
  - cbn. rewrite (String.eqb_sym k' k). destruct (String.eqb k k'); reflexivity.
  - destruct (String.eqb k2 k); [reflexivity|exact IH].
Qed.
Lemma read_db_entry (N : Num) (f : pfile N) k d p : declared k = Some (d, p) ->
  read_db f k = Some (entry f k d).
Proof.
  intros D. unfold read_db, entry. rewrite D, last_assign_find.
  destruct (find _ _) as [[? ?]|]; reflexivity.
Qed.
Lemma get_double_entry (N : Num) (f : pfile N) k d p x : declared k = Some (d, p) ->
  get_double (read_db f) k = Ok x -> entry f k d = VDouble x.
Proof.
  intros D. unfold get_double. rewrite (read_db_entry N f k d p D).
  destruct (entry f k d); intros [= ->] || discriminate; reflexivity.
Qed.
Lemma get_text_entry (N : Num) (f : pfile N) k d p x : declared k = Some (d, p) ->
  get_text (read_db f) k = Ok x -> entry f k d = VText x.
Proof.
  intros D. unfold get_text. rewrite (read_db_entry N f k d p D).
  destruct (entry f k d); intros [= ->] || discriminate; reflexivity.
Qed.
Lemma get_integer_entry (N : Num) skip (f : pfile N) k d x : check_entries skip f = Ok tt ->
  declared k = Some (d, PInteger) ->
  get_integer (read_db f) k = Ok x -> entry f k d = VInt x /\ (-2147483648 <= x <= 2147483647)%Z.
Proof.
  intros B D G. destruct (get_int_ok skip f k d B D) as (z & G' & R).
  assert (z = x) by congruence; subst z. split; [|exact R]. revert G.
  unfold get_integer. rewrite (read_db_entry N f k d _ D).
  destruct (entry f k d); intros [= ->] || discriminate; reflexivity.
Qed.
Lemma to_unsigned_cases z : (-2147483648 <= z <= 2147483647)%Z ->
  ((0 <= z)%Z -> to_unsigned z = z) /\ ((z < 0)%Z -> to_unsigned z = (z + 4294967296)%Z).
Proof.
  intros R; unfold to_unsigned; split; intros H.
  - apply Z.mod_small; lia.
  - symmetry. apply Z.mod_unique with (-1)%Z; lia.
Qed.
Lemma holds_unsigned_intro (N : Num) skip (f : pfile N) k d x : check_entries skip f = Ok tt ->
  declared (N:=N) k = Some (VInt d, PInteger) -> get_integer (read_db f) k = Ok x ->
  holds_unsigned f k d (to_unsigned x).
Proof.
  intros B D G. destruct (get_integer_entry N skip f k _ x B D G) as [E R].
  exists x. split; [exact E|apply to_unsigned_cases, R].
Qed.
Lemma holds_positive_intro (N : Num) skip (f : pfile N) k d x : check_entries skip f = Ok tt ->
  declared (N:=N) k = Some (VInt d, PInteger) -> get_integer (read_db f) k = Ok x ->
  holds_positive f k d (0 <? x)%Z.
Proof.
  intros B D G. destruct (get_integer_entry N skip f k _ x B D G) as [E R].
  exists x. split; [exact E|apply Z.ltb_lt].
Qed.
Lemma holds_nonzero_intro (N : Num) skip (f : pfile N) k d x : check_entries skip f = Ok tt ->
  declared (N:=N) k = Some (VInt d, PInteger) -> get_integer (read_db f) k = Ok x ->
  holds_nonzero f k d (to_bool x).
Proof.
  intros B D G. destruct (get_integer_entry N skip f k _ x B D G) as [E R].
  exists x. split; [exact E|]. unfold to_bool. destruct (Z.eqb_spec x 0); cbn; split; congruence.
Qed.

Lemma every_member (N : Num) (fs : filesystem N) (name : string) (fp : flow_params N) :
    construct fs name = Ok fp ->
    exists f, fs name = Some (Some f) /\
      holds_unsigned f "Navier-Stokes/dimension" 2 (fp_dimension fp) /\
      holds_unsigned f "Navier-Stokes/global refinements" 1 (fp_global_refinements fp) /\
      holds_unsigned f "Navier-Stokes/adaptive refinements" 0 (fp_adaptive_refinements fp) /\
      holds_unsigned f "Navier-Stokes/velocity degree" 2 (fp_velocity_degree fp) /\
      holds_unsigned f "Navier-Stokes/Solver/NL max iterations" 10 (fp_max_nl_iteration fp) /\
      holds_unsigned f "Navier-Stokes/Solver/lin max iterations" 500 (fp_max_lin_iteration fp) /\
      holds_unsigned f "Navier-Stokes/Solver/lin its before inner solvers" 50 (fp_iterations_before_inner_solvers fp) /\
      holds_unsigned f "Output options/output verbosity" 2 (fp_output_verbosity fp) /\
      holds_unsigned f "Two phase/concentration subdivisions" 2 (fp_concentration_subdivisions fp) /\
      holds_unsigned f "Two phase/curvature correction" 0 (fp_curvature_correction fp) /\
      holds_unsigned f "Two phase/number reinit steps" 2 (fp_n_reinit_steps fp) /\
      holds_unsigned f "Two phase/number initial reinit steps" 0 (fp_n_initial_reinit_steps fp) /\
      holds_positive f "Navier-Stokes/anisotropic refinement" 0 (fp_use_anisotropic_refinement fp) /\
      holds_positive f "Navier-Stokes/simplex mesh" 0 (fp_use_simplex_mesh fp) /\
      holds_positive f "Navier-Stokes/Solver/lin relative tolerance" 1 (fp_rel_lin_iteration fp) /\
      holds_positive f "Output options/output wall times" 0 (fp_output_wall_times fp) /\
      holds_positive f "Output options/output memory" 0 (fp_output_memory fp) /\
      holds_nonzero f "Navier-Stokes/augmented Taylor-Hood elements" 0 (fp_augmented_taylor_hood fp) /\
      holds_nonzero f "Two phase/pressure constraint" 1 (fp_pressure_constraint fp) /\
      holds_nonzero f "Two phase/grad pressure compatible" 0 (fp_interpolate_grad_onto_pressure fp) /\
      holds_nonzero f "Two phase/localize surface tension" 1 (fp_surface_tension_from_heaviside fp) /\
      holds_nonzero f "Two phase/approximate projections" 0 (fp_approximate_projections fp) /\
      holds_nonzero f "Two phase/Cahn-Hilliard do Newton" 1 (fp_ch_do_newton fp) /\
      holds_nonzero f "Two phase/full nonlinear iteration" 0 (fp_do_iteration fp) /\
      holds_nonzero f "Two phase/convection stabilization" 0 (fp_convection_stabilization fp) /\
      entry f "Navier-Stokes/Solver/tau grad div" (VDouble (nlit (0 # 1))) = VDouble (fp_tau_grad_div fp) /\
      entry f "Navier-Stokes/Solver/NL tolerance" (VDouble (nlit (1 # 1000000))) = VDouble (fp_tol_nl_iteration fp) /\
      entry f "Navier-Stokes/Solver/lin tolerance" (VDouble (nlit (1 # 1000))) = VDouble (fp_tol_lin_iteration fp) /\
      entry f "Output options/output frequency" (VDouble (nlit (1 # 1))) = VDouble (fp_output_frequency fp) /\
      entry f "Two phase/viscosity difference" (VDouble (nlit (0 # 1))) = VDouble (fp_viscosity_diff fp) /\
      entry f "Two phase/surface tension" (VDouble (nlit (1 # 1))) = VDouble (fp_surface_tension fp) /\
      entry f "Two phase/epsilon" (VDouble (nlit (1 # 1))) = VDouble (fp_epsilon fp) /\
      entry f "Two phase/gravity" (VDouble (nlit (0 # 1))) = VDouble (fp_gravity fp) /\
      entry f "Two phase/diffusion length" (VDouble (nlit (1 # 10))) = VDouble (fp_diffusion_length fp) /\
      entry f "Two phase/contact angle" (VDouble (nlit (0 # 1))) = VDouble (fp_contact_angle fp) /\
      entry f "Time stepping/start time" (VDouble (nlit (0 # 1))) = VDouble (fp_start_time fp) /\
      entry f "Time stepping/end time" (VDouble (nlit (1 # 1))) = VDouble (fp_end_time fp) /\
      entry f "Time stepping/step size" (VDouble (nlit (1 # 100))) = VDouble (fp_time_step_size_start fp) /\
      entry f "Time stepping/CFL number" (VDouble (nlit (4 # 5))) = VDouble (fp_time_stepping_cfl fp) /\
      entry f "Time stepping/CFL number capillary" (VDouble (nlit (10 # 1))) = VDouble (fp_time_stepping_coef2 fp) /\
      entry f "Time stepping/tolerance" (VDouble (nlit (1 # 100))) = VDouble (fp_time_step_tolerance fp) /\
      entry f "Output options/output filename" (VText "") = VText (fp_output_filename fp) /\
      (exists x, entry f "Navier-Stokes/damping" (VDouble (nlit (0 # 1))) = VDouble x /\ fp_damping fp = nopp x) /\
      (exists z, entry f "Output options/output vtk files" (VInt 0) = VInt z /\
        fp_print_solution_fields fp = if ((0 <=? z) && (z <=? 2))%Z then z else 1%Z).
Proof.
  intros H. destruct (construct_inv fs name fp H) as (f & skip & A & B & C & _). clear H.
  exists f; split; [exact A|]. clear A.
  unfold parse_parameters in C. repeat (inv_parse C; cbv zeta in C). inversion C; subst; clear C.
  cbn [fp_dimension fp_global_refinements fp_adaptive_refinements fp_use_anisotropic_refinement
    fp_use_simplex_mesh fp_velocity_degree fp_augmented_taylor_hood fp_damping fp_tau_grad_div
    fp_max_nl_iteration fp_tol_nl_iteration fp_max_lin_iteration fp_tol_lin_iteration fp_rel_lin_iteration
    fp_iterations_before_inner_solvers fp_output_filename fp_output_verbosity fp_output_frequency
    fp_print_solution_fields fp_output_wall_times fp_output_memory fp_start_time fp_end_time
    fp_time_step_size_start fp_time_stepping_cfl fp_time_stepping_coef2 fp_time_step_tolerance
    fp_viscosity_diff fp_surface_tension fp_gravity fp_epsilon fp_diffusion_length fp_contact_angle
    fp_pressure_constraint fp_concentration_subdivisions fp_curvature_correction
    fp_interpolate_grad_onto_pressure fp_surface_tension_from_heaviside fp_approximate_projections
    fp_ch_do_newton fp_do_iteration fp_n_reinit_steps fp_n_initial_reinit_steps fp_convection_stabilization].
  repeat match goal with
  | |- _ /\ _ => split
  | |- holds_unsigned _ _ _ _ => eapply holds_unsigned_intro; [exact B|reflexivity|eassumption]
  | |- holds_positive _ _ _ _ => eapply holds_positive_intro; [exact B|reflexivity|eassumption]
  | |- holds_nonzero _ _ _ _ => eapply holds_nonzero_intro; [exact B|reflexivity|eassumption]
  | |- entry _ _ _ = VDouble _ => eapply get_double_entry; [reflexivity|eassumption]
  | |- entry _ _ _ = VText _ => eapply get_text_entry; [reflexivity|eassumption]
  end.
  - eexists; split; [|reflexivity]. eapply get_double_entry; [reflexivity|eassumption].
  - match goal with G : get_integer _ "Output options/output vtk files" = Ok ?z |- _ => exists z;
      destruct (get_integer_entry N skip f "Output options/output vtk files" _ z B eq_refl G) as [E R] end.
    split; [exact E|]. destruct (to_unsigned_cases _ R) as [R1 R2].
    match type of E with _ = VInt ?z => destruct (Z.leb_spec 0 z) as [L|L] end; cbn [andb].
    + rewrite (R1 L).
      match type of E with _ = VInt ?z => destruct (Z.ltb_spec 2 z); destruct (Z.leb_spec z 2); lia end.
    + rewrite (R2 L). match goal with |- context [(2 <? ?z)%Z] => destruct (Z.ltb_spec 2 z); lia end.
Qed.
