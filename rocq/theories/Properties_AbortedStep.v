(** * C107: time steps that end with an exception *)
From Coq Require Import Reals ZArith QArith Qreals List Bool Lra Lia FunctionalExtensionality.
From Verif Require Import Num NumQ SumR Model_TimeStepping Spec_TimeStepping Model_NonlinearSolver Model_Bubble Model_Transfer Model_TwoPhaseClocks
  Model_BoundaryValues Model_Projection Properties_Projection Model_AbortedStep.
From Verif Require Properties_TimeStepping.
Import Num. Import ListNotations.
Open Scope R_scope.

(** ** Specification *)
(** the clock of the flow after a call *)
Definition clock_after (d : step_data) (s : objects) : clock RNum := next (request_step (ck_ns (o_clocks s)) (d_request d)).
(** the value at the start of the step: linear extrapolation in time once there are two old values *)
Definition predicted (c : clock RNum) (x y : field) : field :=
  fun i => if Rlt_dec 0 (old_step_size c) then x i + step_size c / old_step_size c * (x i - y i) else x i.
(** the request of the k-th call *)
Definition requests (ds : list step_data) (k : nat) : option R := nth k (map d_request ds) None.

(** ** What a call does, in all cases *)
Lemma begin_ns d s b : (b <= 1)%nat -> o_ns (begin_step d s) Old b = o_ns s Sol b /\ o_ns (begin_step d s) OldOld b = o_ns s Old b.
Proof.
  intros H. destruct b as [|[|b]]; [| |lia]; unfold begin_step; cbn [o_ns]; unfold shift_block; puts; split; reflexivity.
Qed.
Lemma begin_tp d s b : (b <= 1)%nat ->
  o_tp (begin_step d s) Old b = o_tp s Sol b /\ o_tp (begin_step d s) OldOld b = o_tp s Old b /\
  o_tp (begin_step d s) Sol b = predicted (clock_after d s) (o_tp s Sol b) (o_tp s Old b).
Proof.
  intros H.
  assert (P : forall (c : clock RNum) (x y : field), fst (fst (init_time_advance (step_size c) (old_step_size c) x y)) = predicted c x y).
  { intros c x y. apply functional_extensionality. intros i. unfold init_time_advance, predicted, Model_Bubble.Rltb. cbn [fst].
    cut (forall a e : R, (if (if Rlt_dec 0 e then true else false) then fun i => (a + e) / e * x i + - a / e * y i else x) i = (if Rlt_dec 0 e then x i + a / e * (x i - y i) else x i)); [intros G; apply G|].
    intros a e. destruct (Rlt_dec 0 e) as [L|L]; [|reflexivity]. field. lra. }
  destruct b as [|[|b]]; [| |lia]; unfold begin_step; cbn [o_tp]; unfold shift_level_set, init_time_advance; puts;
    (split; [reflexivity|split; [reflexivity|]]); rewrite <- P; unfold init_time_advance; cbn [fst]; reflexivity.
Qed.
Lemma begin_clock d s : ck_ns (o_clocks (begin_step d s)) = clock_after d s.
Proof. reflexivity. Qed.

(** the parts of the step after the beginning write only the level set and the curvature of the current time, and the other clocks *)
Definition harmless (f : objects -> objects * bool) : Prop := forall s,
  let s' := fst (f s) in
  ck_ns (o_clocks s') = ck_ns (o_clocks s) /\ o_ns s' = o_ns s /\ (forall n b, n <> Sol -> o_tp s' n b = o_tp s n b).
Lemma vname_eqb_neq n : n <> Sol -> vname_eqb Sol n = false.
Proof. destruct n; congruence || reflexivity. Qed.
Lemma harmless_andthen f g : harmless f -> harmless g -> harmless (fun s => andthen (f s) g).
Proof.
  intros F G s. unfold andthen. destruct (snd (f s)); [|apply F]. destruct (F s) as (A & B & C). destruct (G (fst (f s))) as (A' & B' & C').
  split; [congruence|]. split; [congruence|]. intros n b H. rewrite C', C by exact H. reflexivity.
Qed.
Lemma harmless_advection d : harmless (advection d).
Proof.
  intros s. unfold advection. cbv zeta. destruct (d_advect d _); cbn [fst]; (split; [reflexivity|]); (split; [reflexivity|]);
    intros n b H; cbn [set_tp set_clocks o_tp]; unfold put; rewrite (vname_eqb_neq n H); reflexivity.
Qed.
Lemma harmless_reinit f : harmless (reinitialization f).
Proof.
  intros s. unfold reinitialization. cbv zeta. cbn [fst]. split; [reflexivity|]. split; [reflexivity|].
  intros n b H. cbn [o_tp]. unfold put. rewrite (vname_eqb_neq n H). reflexivity.
Qed.
Lemma harmless_force d : harmless (force d).
Proof.
  intros s. unfold force. cbn [fst]. split; [reflexivity|]. split; [reflexivity|].
  intros n b H. cbn [o_tp set_tp]. unfold put. rewrite (vname_eqb_neq n H). reflexivity.
Qed.
Lemma harmless_interface d : harmless (interface_part d).
Proof.
  unfold interface_part.
  apply (harmless_andthen (fun s => andthen (andthen (advection d s) (reinitialization (d_reinit d))) (force d)) (fun s => if d_smoothing d then andthen (reinitialization (d_smooth d) s) (force d) else (s, true))).
  - apply (harmless_andthen (fun s => andthen (advection d s) (reinitialization (d_reinit d))) (force d)).
    + apply (harmless_andthen (advection d)). apply harmless_advection. apply harmless_reinit.
    + apply harmless_force.
  - destruct (d_smoothing d).
    + apply (harmless_andthen (reinitialization (d_smooth d))). apply harmless_reinit. apply harmless_force.
    + intros s. cbn [fst]. split; [reflexivity|]. split; [reflexivity|]. intros n b H. reflexivity.
Qed.

Lemma call_common it d s :
  let s' := fst (advance_time_step it d s) in
  ck_ns (o_clocks s') = clock_after d s /\ (forall n b, n <> Sol -> o_ns s' n b = o_ns (begin_step d s) n b) /\
  (forall n b, n <> Sol -> o_tp s' n b = o_tp (begin_step d s) n b).
Proof.
  unfold advance_time_step. cbv zeta. destruct it; [cbn [fst]; easy|].
  destruct (harmless_interface d (begin_step d s)) as (A & B & C). destruct (interface_part d (begin_step d s)) as [s1 ok]. cbn [fst] in A, B, C.
  destruct ok.
  - destruct (d_flow d _ _) as [[u p] e]. cbn [fst]. split; [exact A|]. split; [|exact C].
    intros n b H. cbn [o_ns set_ns]. unfold put. rewrite (vname_eqb_neq n H). cbn [andb]. rewrite B. reflexivity.
  - cbn [fst]. split; [exact A|]. split; [|exact C]. intros n b H. rewrite B. reflexivity.
Qed.

(** C107 (clock): however a call ends, the clock of the flow has taken the step *)
Theorem C107_clock : forall it d s, let s' := fst (advance_time_step it d s) in
  ck_ns (o_clocks s') = next (request (ck_ns (o_clocks s)) (d_request d)).
Proof. intros it d s. apply (call_common it d s). Qed.

Lemma fold_clock it ds s : ck_ns (o_clocks (calls it ds s)) = time_loop (requests ds) (length ds) (ck_ns (o_clocks s)).
Proof.
  induction ds as [|d ds IH] using rev_ind; [reflexivity|].
  unfold calls. rewrite fold_left_app. cbn [fold_left]. fold (calls it ds s). rewrite C107_clock, IH.
  rewrite app_length. cbn [length]. rewrite Nat.add_1_r. cbn [time_loop]. unfold adaptive_step.
  assert (L : forall k, (k < length ds)%nat -> requests (ds ++ [d]) k = requests ds k).
  { intros k H. unfold requests. rewrite map_app. apply app_nth1. rewrite map_length. exact H. }
  assert (E : requests (ds ++ [d]) (length ds) = d_request d).
  { unfold requests. rewrite map_app, app_nth2; rewrite map_length; [|lia]. rewrite Nat.sub_diag. reflexivity. }
  rewrite E. f_equal. f_equal.
  cut (forall n, (n <= length ds)%nat -> time_loop (requests ds) n (ck_ns (o_clocks s)) = time_loop (requests (ds ++ [d])) n (ck_ns (o_clocks s))); [intros G; apply G; lia|].
  induction n as [|n IHn]; intros H; [reflexivity|]. cbn [time_loop]. rewrite IHn by lia. rewrite L by lia. reflexivity.
Qed.

(** C107 (end of the run): a loop that catches every exception and goes on reaches the final time, after the same number of calls as a run in
    which all steps succeed *)
Theorem C107_run : forall (p : ts_params RNum) (m : R) (data : nat -> step_data) it s,
  0 < m -> m <= tp_step_start p -> m <= tp_step_max p -> m <= tp_step_min p -> tp_start p < tp_end p -> ck_ns (o_clocks s) = ts_init p ->
  exists n, INR n <= (tp_end p - tp_start p) / m + 1 /\
    (let c := ck_ns (o_clocks (calls it (map data (seq 0 n)) s)) in at_end c = true /\ now c = tp_end p) /\
    forall k, (k < n)%nat -> at_end (ck_ns (o_clocks (calls it (map data (seq 0 k)) s))) = false.
Proof.
  intros p m data it s H0 H1 H2 H3 H4 I0.
  destruct (Properties_TimeStepping.C02_time_loop_terminates p (fun k => d_request (data k)) m H0 H1 H2 H3 H4) as (n & _ & B & E & W & K).
  assert (G : forall k, ck_ns (o_clocks (calls it (map data (seq 0 k)) s)) = time_loop (fun k => d_request (data k)) k (ts_init p)).
  { intros k. rewrite fold_clock, I0, map_length, seq_length.
    cut (forall j, (j <= k)%nat -> time_loop (requests (map data (seq 0 k))) j (ts_init p) = time_loop (fun k => d_request (data k)) j (ts_init p)); [intros G; apply G; lia|].
    induction j as [|j IHj]; intros H; [reflexivity|]. cbn [time_loop]. rewrite IHj by lia. f_equal.
    unfold requests. rewrite map_map. rewrite (nth_indep _ None (d_request (data 0%nat))) by (rewrite map_length, seq_length; lia).
    rewrite (map_nth (fun x => d_request (data x))), seq_nth by lia. reflexivity. }
  exists n. split; [exact B|]. split; [rewrite G; split; assumption|]. intros k L. rewrite G. apply K. exact L.
Qed.

(** C107 (history): however a call ends, the solution the call started from is in the old vectors of both solvers, and nothing else is lost
    than the oldest level *)
Theorem C107_accepted : forall it d s b, (b <= 1)%nat -> let s' := fst (advance_time_step it d s) in
  o_ns s' Old b = o_ns s Sol b /\ o_ns s' OldOld b = o_ns s Old b /\
  o_tp s' Old b = o_tp s Sol b /\ o_tp s' OldOld b = o_tp s Old b.
Proof.
  intros it d s b H s'. destruct (call_common it d s) as (_ & A & C). fold s' in A, C.
  rewrite !A, !C by discriminate. destruct (begin_ns d s b H) as [-> ->]. destruct (begin_tp d s b H) as (-> & -> & _). easy.
Qed.

(** C107 (a call that returns): the stages in their order, each started with the result of the one before *)
Theorem C107_returned : forall d s it, snd (advance_time_step false d s) = Returned it ->
  let s' := fst (advance_time_step false d s) in let c := clock_after d s in
  exists inc phi kappa,
    let start := d_boundary_ls d (predicted c (o_tp s Sol 0%nat) (o_tp s Old 0%nat)) in
    let guess := predicted c (o_tp s Sol 1%nat) (o_tp s Old 1%nat) in
    d_advect d start = Some inc /\ d_reinit d (fun i => start i + inc i) = Complete phi /\ d_curvature d phi guess = Complete kappa /\
    (if d_smoothing d
     then exists psi kappa', d_smooth d phi = Complete psi /\ d_curvature d psi kappa = Complete kappa' /\ o_tp s' Sol 0%nat = psi /\ o_tp s' Sol 1%nat = kappa'
     else o_tp s' Sol 0%nat = phi /\ o_tp s' Sol 1%nat = kappa) /\
    d_flow d (d_boundary_u d (fun i => extrapolate c (o_ns s Sol 0%nat i) (o_ns s Old 0%nat i))) (fun i => extrapolate c (o_ns s Sol 1%nat i) (o_ns s Old 1%nat i))
      = ((o_ns s' Sol 0%nat, o_ns s' Sol 1%nat), Returned it).
Proof.
  intros d s it. unfold advance_time_step.
  assert (U0 : o_ns (begin_step d s) Sol 0%nat = d_boundary_u d (fun i => extrapolate (clock_after d s) (o_ns s Sol 0%nat i) (o_ns s Old 0%nat i))).
  { unfold begin_step. cbn [o_ns]. unfold shift_block. puts. reflexivity. }
  assert (U1 : o_ns (begin_step d s) Sol 1%nat = fun i => extrapolate (clock_after d s) (o_ns s Sol 1%nat i) (o_ns s Old 1%nat i)).
  { unfold begin_step. cbn [o_ns]. unfold shift_block. puts. reflexivity. }
  destruct (begin_tp d s 0%nat ltac:(lia)) as (_ & _ & P0). destruct (begin_tp d s 1%nat ltac:(lia)) as (_ & _ & P1).
  set (s0 := begin_step d s) in *. clearbody s0. set (c := clock_after d s) in *.
  destruct (interface_part d s0) as [s1 ok] eqn:IP. destruct ok; [|discriminate].
  assert (N1 : o_ns s1 = o_ns s0). { destruct (harmless_interface d s0) as (_ & B & _). rewrite IP in B. exact B. }
  destruct (d_flow d (o_ns s1 Sol 0%nat) (o_ns s1 Sol 1%nat)) as [[u p] e] eqn:FL. cbn [fst snd]. intros ->.
  rewrite N1, U0, U1 in FL.
  cbn [o_ns o_tp set_ns]. puts.
  unfold interface_part, advection in IP. cbv zeta in IP. cbn [set_tp set_clocks o_tp] in IP. rewrite P0 in IP.
  set (start := d_boundary_ls d (predicted c (o_tp s Sol 0%nat) (o_tp s Old 0%nat))) in *. clearbody start.
  destruct (d_advect d start) as [inc|] eqn:AD; [|discriminate].
  unfold andthen at 3 in IP. cbn [snd fst] in IP. unfold reinitialization at 1 in IP. cbv zeta in IP. cbn [o_tp set_tp set_clocks o_ns o_clocks] in IP.
  rewrite put_same in IP. unfold add in IP. set (moved := fun i => start i + inc i) in *.
  destruct (d_reinit d moved) as [phi|phi] eqn:RE; [|discriminate].
  unfold andthen at 2 in IP. cbn [snd fst complete content] in IP. unfold force at 1 in IP. cbv zeta in IP. cbn [o_tp o_ns o_clocks set_tp] in IP.
  rewrite put_same in IP.
  rewrite !(put_diff Sol 0%nat _ _ Sol 1%nat) in IP by reflexivity. rewrite P1 in IP.
  set (guess := predicted c (o_tp s Sol 1%nat) (o_tp s Old 1%nat)) in *. clearbody guess.
  destruct (d_curvature d phi guess) as [kappa|kappa] eqn:CU; [|discriminate].
  unfold andthen at 1 in IP. cbn [snd fst complete content] in IP.
  exists inc, phi, kappa. split; [reflexivity|]. split; [exact RE|]. split; [exact CU|]. split.
  2: exact FL.
  destruct (d_smoothing d).
  - unfold reinitialization at 1 in IP. cbv zeta in IP. cbn [o_tp o_ns o_clocks set_tp] in IP.
    rewrite (put_diff Sol 1%nat _ _ Sol 0%nat) in IP by reflexivity. rewrite put_same in IP.
    destruct (d_smooth d phi) as [psi|psi] eqn:SM; [|discriminate].
    unfold andthen in IP. cbn [snd fst complete content] in IP. unfold force in IP. cbv zeta in IP. cbn [o_tp o_ns o_clocks set_tp] in IP.
    rewrite put_same in IP. rewrite (put_diff Sol 0%nat _ _ Sol 1%nat) in IP by reflexivity. rewrite put_same in IP.
    destruct (d_curvature d psi kappa) as [kappa'|kappa'] eqn:CU'; [|discriminate].
    injection IP as <-. exists psi, kappa'. cbn [o_tp set_tp content]. puts. easy.
  - injection IP as <-. cbn [o_tp set_tp content]. puts. easy.
Qed.

(** C107 (the call after a failed one): it starts one step later, the unfinished fields are taken for the solution of the last step *)
Theorem C107_next_call : forall it it' d d' s b, (b <= 1)%nat ->
  let s1 := fst (advance_time_step it d s) in let s2 := fst (advance_time_step it' d' s1) in
  ck_ns (o_clocks s2) = next (request (next (request (ck_ns (o_clocks s)) (d_request d))) (d_request d')) /\
  o_ns s2 Old b = o_ns s1 Sol b /\ o_ns s2 OldOld b = o_ns s Sol b /\ o_tp s2 Old b = o_tp s1 Sol b /\ o_tp s2 OldOld b = o_tp s Sol b.
Proof.
  intros it it' d d' s b H s1 s2. split.
  - unfold s2. rewrite C107_clock. unfold s1. rewrite C107_clock. reflexivity.
  - destruct (C107_accepted it' d' s1 b H) as (A & B & C & D). destruct (C107_accepted it d s b H) as (A' & _ & C' & _). fold s1 in A', C'. fold s2 in A, B, C, D.
    rewrite A, B, C, D, A', C'. easy.
Qed.
(** C107 (three failures): after three calls in a row that end with an exception, no vector holds the last accepted solution: the history consists of
    what the first two left *)
Theorem C107_lost : forall it d1 d2 d3 s b, (b <= 1)%nat ->
  let s1 := fst (advance_time_step it d1 s) in let s2 := fst (advance_time_step it d2 s1) in let s3 := fst (advance_time_step it d3 s2) in
  o_ns s3 Old b = o_ns s2 Sol b /\ o_ns s3 OldOld b = o_ns s1 Sol b /\ o_tp s3 Old b = o_tp s2 Sol b /\ o_tp s3 OldOld b = o_tp s1 Sol b.
Proof. intros it d1 d2 d3 s b H s1 s2 s3. apply (C107_next_call it it d2 d3 s1 b H). Qed.

(** ** The other clocks *)
(** C107 (clocks): the clock of the advection is advanced by the same amount in every call that gets so far, the one of the reinitialization only
    when it comes to its end; under "full nonlinear iteration" neither moves although the flow clock does *)
Theorem C107_clocks : forall d s,
  (let s' := fst (advance_time_step true d s) in ck_adv (o_clocks s') = ck_adv (o_clocks s) /\ ck_reinit (o_clocks s') = ck_reinit (o_clocks s)) /\
  (let s' := fst (advance_time_step false d s) in let dt := step_size (clock_after d s) in
   ck_adv (o_clocks s') = next (set_desired_time_step (ck_adv (o_clocks s)) dt) /\
   (d_advect d (d_boundary_ls d (predicted (clock_after d s) (o_tp s Sol 0%nat) (o_tp s Old 0%nat))) = None ->
      ck_reinit (o_clocks s') = ck_reinit (o_clocks s)) /\
   (forall inc, let start := d_boundary_ls d (predicted (clock_after d s) (o_tp s Sol 0%nat) (o_tp s Old 0%nat)) in d_advect d start = Some inc ->
      complete (d_reinit d (fun i => start i + inc i)) = false ->
      ck_reinit (o_clocks s') = set_desired_time_step (ck_reinit (o_clocks s)) dt)).
Proof.
  intros d s. split; [split; reflexivity|]. unfold advance_time_step.
  destruct (begin_tp d s 0%nat ltac:(lia)) as (_ & _ & P0).
  assert (K0 : ck_ns (o_clocks (begin_step d s)) = clock_after d s) by reflexivity.
  assert (K1 : ck_adv (o_clocks (begin_step d s)) = ck_adv (o_clocks s)) by reflexivity.
  assert (K2 : ck_reinit (o_clocks (begin_step d s)) = ck_reinit (o_clocks s)) by reflexivity.
  set (s0 := begin_step d s) in *. clearbody s0. set (c := clock_after d s) in *. clearbody c. cbv zeta.
  (* the end of the call does not touch the clocks *)
  assert (FIN : forall (r : objects * bool) k, o_clocks (fst r) = k ->
    o_clocks (fst (match r with (s, false) => (s, Threw) | (s, true) => let '(u, p, e) := d_flow d (o_ns s Sol 0%nat) (o_ns s Sol 1%nat) in
      (set_ns (put Sol 1%nat p (put Sol 0%nat u (o_ns s))) s, e) end)) = k).
  { intros [r ok] k <-. destruct ok; [|reflexivity]. destruct (d_flow d _ _) as [[u p] e]. reflexivity. }
  rewrite (FIN (interface_part d s0) (o_clocks (fst (interface_part d s0))) eq_refl).
  set (start := d_boundary_ls d (predicted c (o_tp s Sol 0%nat) (o_tp s Old 0%nat))).
  assert (A : ck_adv (o_clocks (fst (advection d s0))) = next (set_desired_time_step (ck_adv (o_clocks s)) (step_size c)) /\
              ck_reinit (o_clocks (fst (advection d s0))) = ck_reinit (o_clocks s) /\ ck_ns (o_clocks (fst (advection d s0))) = c).
  { unfold advection. cbv zeta. destruct (d_advect d _); cbn [fst set_tp set_clocks o_clocks ck_adv ck_reinit ck_ns]; rewrite K0, K1, K2; unfold advance_concentration_clock; easy. }
  assert (S0 : snd (advection d s0) = match d_advect d start with Some _ => true | None => false end /\
               forall inc, d_advect d start = Some inc -> o_tp (fst (advection d s0)) Sol 0%nat = fun i => start i + inc i).
  { unfold advection. cbv zeta. cbn [set_tp set_clocks o_tp]. rewrite P0. fold start. destruct (d_advect d start); cbn [fst snd]; (split; [reflexivity|]); [|discriminate].
    intros inc [= <-]. cbn [set_tp o_tp]. puts. reflexivity. }
  destruct A as (A1 & A2 & A3). destruct S0 as (S1 & S2).
  assert (KEEP : forall f, (forall r, ck_adv (o_clocks (fst (f r))) = ck_adv (o_clocks r)) -> forall r : objects * bool, ck_adv (o_clocks (fst (andthen r f))) = ck_adv (o_clocks (fst r))).
  { intros f H r. unfold andthen. destruct (snd r); [apply H|reflexivity]. }
  split.
  - unfold interface_part. rewrite KEEP.
    + rewrite KEEP; [|intros r; reflexivity]. rewrite KEEP; [|intros r; reflexivity]. exact A1.
    + intros r. destruct (d_smoothing d); [|reflexivity]. rewrite KEEP; [reflexivity|]. intros r'. reflexivity.
  - split.
    + intros H. rewrite H in S1. unfold interface_part, andthen. rewrite !S1. exact A2.
    + intros inc H H'. rewrite H in S1. specialize (S2 inc H).
      assert (E : andthen (advection d s0) (reinitialization (d_reinit d)) = reinitialization (d_reinit d) (fst (advection d s0))) by (unfold andthen; rewrite S1; reflexivity).
      assert (F : snd (reinitialization (d_reinit d) (fst (advection d s0))) = false).
      { unfold reinitialization. cbv zeta. cbn [snd]. rewrite S2. exact H'. }
      unfold interface_part. rewrite E. unfold andthen. rewrite !F.
      unfold reinitialization. cbv zeta. cbn [fst o_clocks ck_reinit]. rewrite S2, A2, A3, H'. reflexivity.
Qed.
(** C107 (iterated scheme): with "full nonlinear iteration" no call ever returns, and no call moves the interface: from the first step of a run on, the
    level set and the curvature of the current and of the last time are the initial ones, whatever the clock of the flow shows *)
Theorem C107_full_iteration : forall d ds s b, (b <= 1)%nat -> old_step_size (clock_after d s) <= 0 ->
  let s' := calls true (d :: ds) s in
  (forall d' r, snd (advance_time_step true d' r) = Threw) /\
  o_tp s' Sol b = o_tp s Sol b /\ o_tp s' Old b = o_tp s Sol b /\
  step_no (ck_ns (o_clocks s')) = ((step_no (ck_ns (o_clocks s)) mod 4294967296 + Z.of_nat (S (length ds))) mod 4294967296)%Z.
Proof.
  intros d ds s b H Z s'. split; [reflexivity|].
  assert (ONE : forall d r, fst (advance_time_step true d r) = begin_step d r) by reflexivity.
  assert (INV : o_tp s' Sol b = o_tp s Sol b /\ o_tp s' Old b = o_tp s Sol b).
  { unfold s'. clear s'. induction ds as [|d' ds IH] using rev_ind.
    - unfold calls. cbn [fold_left]. rewrite ONE. destruct (begin_tp d s b H) as (A & _ & B). rewrite A, B. split; [|reflexivity].
      unfold predicted. destruct (Rlt_dec 0 _) as [L|L]; [|reflexivity].
      exfalso. exact (Rlt_irrefl _ (Rlt_le_trans _ _ _ L Z)).
    - change (d :: ds ++ [d']) with ((d :: ds) ++ [d']). unfold calls. rewrite fold_left_app. cbn [fold_left]. fold (calls true (d :: ds) s).
      destruct IH as [I1 I2]. change (fold_left (fun s d => fst (advance_time_step true d s)) ds (fst (advance_time_step true d s))) with (calls true (d :: ds) s).
      set (r := calls true (d :: ds) s) in *. rewrite ONE. destruct (begin_tp d' r b H) as (A & _ & B). rewrite A, B, I1, I2. split; [|reflexivity].
      apply functional_extensionality. intros i. unfold predicted. destruct (Rlt_dec 0 _); [|reflexivity].
      cut (forall q x : R, x + q * (x - x) = x); [intros G; apply G|]. intros. ring. }
  destruct INV as [I1 I2]. split; [exact I1|]. split; [exact I2|].
  unfold s'. rewrite fold_clock. cbn [length]. unfold step_no.
  assert (SN : forall (c : clock RNum) q, step_no_val (next (request c q)) = ((step_no_val c + 1) mod 4294967296)%Z) by (intros c [q|]; reflexivity).
  induction (length ds) as [|n IHn].
  - cbn [time_loop]. unfold adaptive_step. rewrite SN. cbn [Z.of_nat Pos.of_succ_nat]. rewrite Zplus_mod_idemp_l. reflexivity.
  - cbn [time_loop] in IHn |- *. unfold adaptive_step in IHn |- *. rewrite SN, IHn. rewrite Zplus_mod_idemp_l. f_equal. lia.
Qed.

(** C107 (violation): a call that ends with an exception cannot be repeated: for every state there is a step (a boundary value of the level set that
    differs from the solution, GMRES and BiCGStab without convergence) after which the next call uses a level set that was never accepted as the one
    of the last time; the accepted one is the older level *)
Theorem C107_violation_retry : forall s retry, exists d,
  let s1 := fst (advance_time_step false d s) in let s2 := fst (advance_time_step false retry s1) in
  snd (advance_time_step false d s) = Threw /\ d_request d = None /\
  o_tp s2 Old 0%nat 0%nat = o_tp s Sol 0%nat 0%nat + 1 /\ o_tp s2 OldOld 0%nat = o_tp s Sol 0%nat /\
  o_tp (fst (advance_time_step false retry s)) Old 0%nat = o_tp s Sol 0%nat /\
  step_no (ck_ns (o_clocks s2)) = ((step_no (ck_ns (o_clocks (fst (advance_time_step false retry s)))) + 1) mod 4294967296)%Z.
Proof.
  intros s retry.
  set (d := {| d_request := None; d_boundary_u := fun u => u; d_boundary_ls := fun x i => if Nat.eqb i 0 then o_tp s Sol 0%nat 0%nat + 1 else x i;
               d_advect := fun _ => None; d_reinit := Complete; d_curvature := fun _ k => Complete k; d_smoothing := false; d_smooth := Complete;
               d_flow := fun u p => ((u, p), Returned (1, 1)%Z) |}).
  exists d. split; [reflexivity|]. split; [reflexivity|].
  destruct (C107_next_call false false d retry s 0%nat ltac:(lia)) as (A & _ & _ & B & C). cbv zeta in A, B, C |- *.
  rewrite B, C, A. split.
  - unfold advance_time_step, interface_part, advection, andthen, d. cbv zeta. cbn [d_advect d_boundary_ls snd fst]. cbn [o_tp set_tp]. puts. reflexivity.
  - split; [reflexivity|]. destruct (C107_accepted false retry s 0%nat ltac:(lia)) as (_ & _ & E & _). split; [exact E|].
    rewrite C107_clock. unfold step_no. cbn [d d_request request next step_no_val]. destruct (d_request retry); cbn [request set_desired_time_step with_step next step_no_val]; reflexivity.
Qed.

(** ** The projection scheme *)
(** C107 (projection, all steps converge): the call is the time step of the projection scheme (C91) *)
Theorem C107_projection_success : forall n_u variable nu ranges con_u con_schur d c v u phi chi,
  p_velocity d = Complete u -> p_poisson d = Complete phi -> p_mass d = Complete chi ->
  let r := projection_call con_u con_schur d (c, v) in
  snd r = true /\ fst (fst r) = next c /\
  forall n b, snd (fst r) n b =
    projection_time_step n_u variable nu ranges con_u con_schur v (MkStep (next c) (p_bc d) (MkResults u phi chi) (p_finish d)) n b.
Proof.
  intros n_u variable nu ranges con_u con_schur d c v u phi chi HU HP HM. cbv zeta. unfold projection_call. cbv zeta. cbn [fst snd].
  unfold projection_time_step, started, finished. cbn [ps_clock ps_apply_bc ps_results ps_finish_p]. cbv zeta.
  set (w := put Sol 0%nat _ _). clearbody w. unfold projection_part. cbv zeta. rewrite HU, HP, HM. cbn [complete content negb].
  split; [reflexivity|]. split; [reflexivity|]. intros n b. cbn [fst snd].
  unfold solve_projection_system. cbv zeta. cbn [pr_phi pr_update_p pr_update_u r_velocity r_poisson r_mass]. puts.
  destruct n; destruct b as [|[|b]]; puts; try reflexivity.
Qed.

(** C107 (projection, a linear solver fails): the exception leaves the pressure of the last step as the solution; the pressure corrections of the
    history, however, depend on which of the three solvers failed *)
Theorem C107_projection_failed : forall con_u con_schur d c v, (1 < step_no (next c))%Z ->
  let r := projection_call con_u con_schur d (c, v) in
  (complete (p_velocity d) && complete (p_poisson d) && complete (p_mass d) = false -> snd r = false) /\
  (snd r = false -> let w := snd (fst r) in
     fst (fst r) = next c /\ w Sol 1%nat = v Sol 1%nat /\
     w Sol 0%nat = p_bc d (fun i => extrapolate (next c) (v Sol 0%nat i) (v Old 0%nat i)) /\ w Old 0%nat = v Sol 0%nat /\ w OldOld 0%nat = v Old 0%nat /\
     w OldOld 1%nat = v Old 1%nat /\
     w Old 1%nat = if complete (p_velocity d)
                   then (if complete (p_poisson d) then distribute con_schur (content (p_poisson d)) else content (p_poisson d))
                   else v Old 1%nat).
Proof.
  intros con_u con_schur d c v H. cbv zeta. unfold projection_call. cbv zeta. cbn [fst snd].
  set (c' := next c) in *. clearbody c'.
  set (w := put Sol 0%nat (p_bc d (shift_projection c' (shift_block c' 0%nat v) Sol 0%nat)) (shift_projection c' (shift_block c' 0%nat v))).
  assert (W : w Upd 1%nat = v Sol 1%nat /\ w Sol 0%nat = p_bc d (fun i => extrapolate c' (v Sol 0%nat i) (v Old 0%nat i)) /\
              w Old 0%nat = v Sol 0%nat /\ w OldOld 0%nat = v Old 0%nat /\ w OldOld 1%nat = v Old 1%nat /\ w Old 1%nat = v Old 1%nat).
  { unfold w, shift_projection. replace (1 <? step_no c')%Z with true by (symmetry; apply Z.ltb_lt; exact H). unfold shift_block. cbv zeta. puts. easy. }
  clearbody w. destruct W as (W1 & W2 & W3 & W4 & W5 & W6).
  unfold projection_part. cbv zeta.
  destruct (complete (p_velocity d)) eqn:C1; cbn [negb andb].
  2:{ split; [reflexivity|]. intros _. cbn [fst snd]. puts. easy. }
  destruct (complete (p_poisson d)) eqn:C2; cbn [negb andb].
  2:{ split; [reflexivity|]. intros _. cbn [fst snd]. puts. easy. }
  destruct (complete (p_mass d)) eqn:C3; cbn [negb andb].
  2:{ split; [reflexivity|]. intros _. cbn [fst snd]. puts. easy. }
  split; discriminate.
Qed.

(** C107 (projection, the call after a failed velocity solve): it extrapolates with the same pressure correction twice, the one before it is gone *)
Theorem C107_violation_projection : forall con_u con_schur d d' c v i, (1 < step_no (next c))%Z -> (1 < step_no (next (next c)))%Z ->
  complete (p_velocity d) = false ->
  let st := fst (projection_call con_u con_schur d (c, v)) in let c' := next (next c) in
  started (MkStep c' (p_bc d') (MkResults zero zero zero) (p_finish d')) (snd st) Sol 1%nat i =
    v Sol 1%nat i - (weight_old c' + weight_old_old c') / weight c' * v Old 1%nat i.
Proof.
  intros con_u con_schur d d' c v i H H' F. cbv zeta.
  destruct (C107_projection_failed con_u con_schur d c v H) as [A B]. rewrite F in A. specialize (B (A eq_refl)). cbv zeta in B.
  destruct B as (_ & P & _ & _ & _ & O & Q). rewrite F in Q.
  set (w := snd (fst (projection_call con_u con_schur d (c, v)))) in *. clearbody w.
  unfold started. cbn [ps_clock ps_apply_bc]. unfold shift_projection. replace (1 <? step_no (next (next c)))%Z with true by (symmetry; apply Z.ltb_lt; exact H').
  unfold shift_block. cbv zeta. puts. rewrite P, O, Q. unfold pressure_guess.
  cut (forall wo woo w x y : R, x - wo / w * y - woo / w * y = x - (wo + woo) / w * y); [intros G; apply G|]. intros. unfold Rdiv. ring.
Qed.

(** ** The hypotheses are met *)
Definition step_ok : step_data :=
  {| d_request := None; d_boundary_u := fun u => u; d_boundary_ls := fun x => x; d_advect := fun _ => Some (fun _ => 1); d_reinit := fun x => Complete (fun i => 2 * x i);
     d_curvature := fun x k => Complete (fun i => x i + k i); d_smoothing := true; d_smooth := fun x => Complete (fun i => x i - 1);
     d_flow := fun u p => ((u, p), Returned (2, 3)%Z) |}.
Definition fresh_clock : clock RNum := ts_init (MkTP (N:=RNum) implicit_euler 0 10 1 1 (1 / 2)).
Definition fresh : objects := MkObjects (MkClocks fresh_clock fresh_clock fresh_clock) (fun _ _ _ => 0) (fun _ _ _ => 5).
Example C107_run_nonvacuous : exists n, INR n <= (10 - 0) / (1 / 2) + 1 /\
  (let c := ck_ns (o_clocks (calls true (map (fun _ => step_ok) (seq 0 n)) fresh)) in at_end c = true /\ now c = 10) /\
  forall k, (k < n)%nat -> at_end (ck_ns (o_clocks (calls true (map (fun _ => step_ok) (seq 0 k)) fresh))) = false.
Proof. apply (C107_run (MkTP (N:=RNum) implicit_euler 0 10 1 1 (1 / 2)) (1 / 2) (fun _ => step_ok) true fresh); cbn [tp_step_start tp_step_max tp_step_min tp_start tp_end]; try lra. reflexivity. Qed.
Example C107_returned_nonvacuous : snd (advance_time_step false step_ok fresh) = Returned (2, 3)%Z.
Proof. reflexivity. Qed.
Example C107_full_iteration_nonvacuous : old_step_size (clock_after step_ok fresh) <= 0.
Proof.
  assert (Z0 : Q2R (0 # 1) = 0) by (unfold Q2R; cbn; lra).
  change (next_last fresh_clock <= 0). unfold next_last. replace (not_at_start fresh_clock) with false.
  - change (Q2R (0 # 1) <= 0). rewrite Z0. apply Rle_refl.
  - symmetry. unfold not_at_start. change (negb (Reqb 0 0) = false). unfold Reqb. destruct (Req_EM_T 0 0); [reflexivity|contradiction n; reflexivity].
Qed.
(** a velocity solve that stops early, in the fifth step of a clock *)
Example C107_projection_nonvacuous : let d := MkProjData (Interrupted (fun _ => 7)) (Complete zero) (Complete zero) (fun u => u) (fun p => p) in
  let c := next (next (next (next fresh_clock))) in
  (1 < step_no (next c))%Z /\ (1 < step_no (next (next c)))%Z /\ complete (p_velocity d) = false /\ snd (projection_call (fun _ => None) (fun _ => None) d (c, fun _ _ _ => 1)) = false.
Proof.
  intros d c. assert (E : step_no c = 4%Z) by reflexivity.
  assert (SN : forall c : clock RNum, step_no (next c) = ((step_no c + 1) mod 4294967296)%Z) by reflexivity.
  rewrite !SN, E. split; [reflexivity|]. split; [reflexivity|]. split; reflexivity.
Qed.
Print Assumptions C107_clock.
Print Assumptions C107_run.
Print Assumptions C107_accepted.
Print Assumptions C107_returned.
Print Assumptions C107_next_call.
Print Assumptions C107_lost.
Print Assumptions C107_clocks.
Print Assumptions C107_full_iteration.
Print Assumptions C107_violation_retry.
Print Assumptions C107_projection_success.
Print Assumptions C107_projection_failed.
Print Assumptions C107_violation_projection.
