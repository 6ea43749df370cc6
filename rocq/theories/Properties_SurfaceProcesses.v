(** * C113: surface tension of the sharp-interface solvers and the number of processes *)
From Coq Require Import Reals List Bool ZArith Permutation Lia Lra.
From Verif Require Import SumR Model_SharpInterface Properties_SharpInterface Model_SurfaceProcesses.
Import ListNotations.
Open Scope R_scope.

(** ** Specification *)
(** The force of all the points [all] of the surface: every point with its value in the cells around it. *)
Definition surface_total {X P} (around : X -> list (cellid * P)) (all : list (X * R)) (value : cellid -> P -> R -> R) : R :=
  suml all (fun xw => suml (around (fst xw)) (fun cp => value (fst cp) (snd cp) (snd xw))).
(** every process has all the points; every point is on one of the processes *)
Definition replicated {X} (n : nat) (pts : nat -> list (X * R)) (all : list (X * R)) : Prop := forall r, (r < n)%nat -> pts r = all.
Definition distributed {X} (n : nat) (pts : nat -> list (X * R)) (all : list (X * R)) : Prop := Permutation (flat_map pts (seq 0 n)) all.
(** ghost layer: the owner of an entry stores every cell in which its basis function does not vanish *)
Definition ghost_layer {P} (owner : nat -> nat) (stored : nat -> cellid -> bool) (shape : cellid -> P -> nat -> R) : Prop :=
  forall g c p, shape c p g <> 0 -> stored (owner g) c = true.

(** ** Auxiliary *)
Lemma sumn_owner n k (a : R) : (k < n)%nat -> sumn n (fun r => if Nat.eqb r k then a else 0) = a.
Proof.
  intros H. rewrite (sumn_delta n k _ H).
  - rewrite Nat.eqb_refl. reflexivity.
  - intros i _ E. destruct (Nat.eqb_spec i k); [contradiction|reflexivity].
Qed.
Lemma sum_by_owner {A} n (own : A -> nat) (f : A -> R) l : (forall x, In x l -> (own x < n)%nat) ->
  sumn n (fun r => suml (filter (fun x => Nat.eqb (own x) r) l) f) = suml l f.
Proof.
  induction l as [|x l IH]; intros H; [apply sumn_0|].
  rewrite (sumn_ext n _ (fun r => (if Nat.eqb r (own x) then f x else 0) + suml (filter (fun y => Nat.eqb (own y) r) l) f)).
  - rewrite sumn_plus, IH by (intros; apply H; now right). rewrite sumn_owner by (apply H; now left). reflexivity.
  - intros r _. cbn [filter]. rewrite (Nat.eqb_sym (own x) r). destruct (Nat.eqb r (own x)); cbn [suml]; ring.
Qed.
Lemma suml_filter_zero {A} (p : A -> bool) (f : A -> R) l : (forall x, In x l -> p x = false -> f x = 0) -> suml (filter p l) f = suml l f.
Proof.
  induction l as [|x l IH]; intros H; [reflexivity|]. cbn [filter suml]. destruct (p x) eqn:E; cbn [suml];
    rewrite IH by (intros; apply H; auto; now right); [reflexivity|]. rewrite (H x (or_introl eq_refl) E). ring.
Qed.
Lemma compress_add_sum n owner v added g : (owner g < n)%nat -> compress_add n owner v added g = v g + sumn n (fun r => added r g).
Proof. intros H. unfold compress_add, part. rewrite sumn_plus, sumn_owner by exact H. reflexivity. Qed.
Lemma sum_flat {A} n (pts : nat -> list A) (f : A -> R) : sumn n (fun s => suml (pts s) f) = suml (flat_map pts (seq 0 n)) f.
Proof.
  rewrite suml_flat_map. induction n as [|n IH]; [reflexivity|]. rewrite seq_S, suml_app. cbn [suml plus sumn]. rewrite IH. ring.
Qed.

(** ** C113 *)
(** Marching cubes: independent of the number of processes and of the owners of cells and entries. *)
Theorem C113_marching_cubes : forall {P} n owner owner_cell (shape : cellid -> P -> nat -> R) dim sigma kappa normal comp cells cut v g,
  (owner g < n)%nat -> (forall c, In c cells -> (owner_cell c < n)%nat) ->
  marching_force n owner owner_cell shape dim sigma kappa normal comp cells cut v g =
  v g + suml cells (fun c => suml (cut c) (fun pw =>
    sigma * (normal c (fst pw) comp / tnorm dim (normal c (fst pw))) * kappa c (fst pw) * snd pw * shape c (fst pw) g)).
Proof.
  intros P n owner owner_cell shape dim sigma kappa normal comp cells cut v g Hg Hc.
  unfold marching_force. rewrite compress_add_sum by exact Hg. f_equal. unfold marching_added. rewrite sum_by_owner by exact Hc. reflexivity.
Qed.
Print Assumptions C113_marching_cubes.

(** Mixed level set: the points of all processes are added up.  With every point on one process this is the force of the surface; with all
    points on every process (a surface mesh of class Triangulation) it is that force times the number of processes.  The owners of the cells
    and of the entries do not matter. *)
Theorem C113_mixed : forall {X P} n owner owner_cell (around : X -> list (cellid * P)) (shape : cellid -> P -> nat -> R) pts dim sigma kappa normal comp v g all,
  (owner g < n)%nat -> (forall x cp, In cp (around x) -> (owner_cell (fst cp) < n)%nat) ->
  let value c p JxW := sigma * sigma * (normal c p comp / tnorm dim (normal c p)) * kappa c p * JxW * shape c p g in
  let force := mixed_force n owner owner_cell around shape pts dim sigma kappa normal comp v g in
  (distributed n pts all -> force = v g + surface_total around all value) /\
  (replicated n pts all -> force = v g + INR n * surface_total around all value).
Proof.
  intros X P n owner owner_cell around shape pts dim sigma kappa normal comp v g all Hg Hc. cbv zeta.
  set (value := fun c p JxW => sigma * sigma * (normal c p comp / tnorm dim (normal c p)) * kappa c p * JxW * shape c p g).
  assert (E : mixed_force n owner owner_cell around shape pts dim sigma kappa normal comp v g =
              v g + sumn n (fun s => surface_total around (pts s) value)).
  { unfold mixed_force. rewrite compress_add_sum by exact Hg. f_equal. unfold mixed_added, surface_total. rewrite sumn_swap.
    apply sumn_ext. intros s _. rewrite <- suml_sumn. apply suml_ext. intros xw _.
    rewrite (sum_by_owner n (fun cp => owner_cell (fst cp)) _ (around (fst xw))) by (intros cp I; exact (Hc _ _ I)). reflexivity. }
  rewrite E. split; intros H; f_equal.
  - unfold surface_total. rewrite sum_flat. apply suml_perm, H.
  - rewrite (sumn_ext n _ (fun _ => surface_total around all value)) by (intros r I; rewrite (H r I); reflexivity).
    clear. induction n as [|n IH]; [cbn; ring|]. rewrite S_INR. cbn [sumn]. rewrite IH. ring.
Qed.
Print Assumptions C113_mixed.

(** Front tracking on one or several processes: what an entry gets is what its owner finds. *)
Lemma front_force_sum {X P} owner stored (around : X -> list (cellid * P)) (shape : cellid -> P -> nat -> R) pts infos v g :
  (forall x c p, In (c, p) (around x) -> (0 <= fst c)%Z) ->
  std_sorted (collect_info_all (locate_on stored around (owner g)) (pts (owner g))) (infos (owner g)) ->
  front_tracking_force owner shape infos v g =
  v g + suml (pts (owner g)) (fun xw => suml (filter (fun cp => stored (owner g) (fst cp)) (around (fst xw))) (fun cp => snd xw * shape (fst cp) (snd cp) g)).
Proof.
  intros H S. unfold front_tracking_force, part. rewrite Nat.eqb_refl. f_equal.
  rewrite (C50_force_is_sum shape _ (infos (owner g)) (fun _ => 0) g) with (2 := S).
  - rewrite Rplus_0_l. unfold collect_info_all. rewrite suml_flat_map. apply suml_ext. intros xw _. unfold locate_on.
    destruct (filter (fun cp => stored (owner g) (fst cp)) (around (fst xw))) as [|cp l] eqn:E; [reflexivity|].
    rewrite suml_map. reflexivity.
  - intros e E. unfold collect_info_all in E. apply in_flat_map in E as (xw & _ & E). unfold locate_on in E.
    destruct (filter (fun cp => stored (owner g) (fst cp)) (around (fst xw))) as [|cp l] eqn:Q; [destruct E|].
    apply in_map_iff in E as ([c p] & <- & I). cbn. rewrite <- Q in I. apply filter_In in I as [I _]. exact (H _ _ _ I).
Qed.

(** Front tracking: if every process has the whole surface mesh and the ghost layer is there, the force is that of the surface, for every number
    of processes, all owners and every order std::sort may choose. *)
Theorem C113_front_tracking : forall {X P} n owner stored (around : X -> list (cellid * P)) (shape : cellid -> P -> nat -> R) pts infos v g all,
  (owner g < n)%nat -> (forall x c p, In (c, p) (around x) -> (0 <= fst c)%Z) -> ghost_layer owner stored shape ->
  replicated n pts all ->
  (forall r, (r < n)%nat -> std_sorted (collect_info_all (locate_on stored around r) (pts r)) (infos r)) ->
  front_tracking_force owner shape infos v g = v g + surface_total around all (fun c p w => w * shape c p g).
Proof.
  intros X P n owner stored around shape pts infos v g all Hg Hc G Re S.
  rewrite (front_force_sum owner stored around shape pts infos v g Hc (S _ Hg)). f_equal. rewrite (Re _ Hg). unfold surface_total.
  apply suml_ext. intros xw _. apply suml_filter_zero. intros [c p] _ E. cbn [fst snd] in *.
  destruct (Req_dec (shape c p g) 0) as [->|N]; [ring|]. rewrite (G g c p N) in E. discriminate.
Qed.
Print Assumptions C113_front_tracking.

(** With a distributed surface mesh, points that are not on the owner of an entry are lost for this entry. *)
Theorem C113_violation_front_distributed : forall {X P} n owner stored (around : X -> list (cellid * P)) (shape : cellid -> P -> nat -> R) pts infos v g all,
  (owner g < n)%nat -> (forall x c p, In (c, p) (around x) -> (0 <= fst c)%Z) -> ghost_layer owner stored shape ->
  distributed n pts all ->
  (forall r, (r < n)%nat -> std_sorted (collect_info_all (locate_on stored around r) (pts r)) (infos r)) ->
  front_tracking_force owner shape infos v g = v g + surface_total around all (fun c p w => w * shape c p g)
    - sumn n (fun r => if Nat.eqb r (owner g) then 0 else surface_total around (pts r) (fun c p w => w * shape c p g)).
Proof.
  intros X P n owner stored around shape pts infos v g all Hg Hc G D S.
  rewrite (front_force_sum owner stored around shape pts infos v g Hc (S _ Hg)).
  assert (E : surface_total around all (fun c p w => w * shape c p g) = sumn n (fun r => surface_total around (pts r) (fun c p w => w * shape c p g))).
  { unfold surface_total. rewrite sum_flat. symmetry. apply suml_perm, D. }
  rewrite E. unfold Rminus. rewrite Rplus_assoc, <- sumn_opp, <- sumn_plus. f_equal.
  rewrite (sumn_ext n _ (fun r => if Nat.eqb r (owner g) then surface_total around (pts (owner g)) (fun c p w => w * shape c p g) else 0)).
  - rewrite sumn_owner by exact Hg. unfold surface_total. apply suml_ext. intros xw _. apply suml_filter_zero. intros [c p] _ F. cbn [fst snd] in *.
    destruct (Req_dec (shape c p g) 0) as [->|N]; [ring|]. rewrite (G g c p N) in F. discriminate.
  - intros r _. destruct (Nat.eqb_spec r (owner g)) as [->|]; ring.
Qed.
Print Assumptions C113_violation_front_distributed.

(** The mixed level set solver on n processes with a replicated surface mesh computes the force of a surface tension that is larger by the factor
    of the square root of n (the value depends on the square of the entry, see C50): it differs from the force on one process whenever that is not zero. *)
Theorem C113_violation_mixed_replicated : forall {X P} n owner owner_cell (around : X -> list (cellid * P)) (shape : cellid -> P -> nat -> R) all dim sigma kappa normal comp v g,
  (2 <= n)%nat -> (owner g < n)%nat -> (forall x cp, In cp (around x) -> (owner_cell (fst cp) < n)%nat) ->
  let on_one := mixed_force 1 (fun _ => 0%nat) (fun _ => 0%nat) around shape (fun _ => all) dim sigma kappa normal comp v g in
  let on_n := mixed_force n owner owner_cell around shape (fun _ => all) dim sigma kappa normal comp v g in
  on_n - v g = INR n * (on_one - v g) /\ (on_one <> v g -> on_n <> on_one).
Proof.
  intros X P n owner owner_cell around shape all dim sigma kappa normal comp v g Hn Hg Hc. cbv zeta.
  destruct (C113_mixed n owner owner_cell around shape (fun _ => all) dim sigma kappa normal comp v g all Hg Hc) as [_ A].
  destruct (C113_mixed 1 (fun _ => 0%nat) (fun _ => 0%nat) around shape (fun _ => all) dim sigma kappa normal comp v g all) as [_ B]; [lia|intros; lia|].
  rewrite A, B by (intros r _; reflexivity). set (t := surface_total _ _ _). clearbody t. cbn [INR]. split; [ring|].
  intros N E. apply N. assert (K : (INR n - 1) * t = 0) by lra. apply Rmult_integral in K as [K|K]; [|rewrite K; ring].
  apply le_INR in Hn. cbn in Hn. lra.
Qed.
Print Assumptions C113_violation_mixed_replicated.

(** ** Concrete case *)
(** two cells [0,1], [1,2] on the line with hat functions (ex_shape of C50), the first cell and the entries 0, 1 on process 0; one surface point 1/2 *)
Definition sp_owner (g : nat) : nat := if Nat.leb g 1 then 0 else 1.
Definition sp_cell (c : cellid) : nat := if Z.eqb (snd c) 0 then 0 else 1.
Definition sp_around (x : R) : list (cellid * R) := [((0, 0)%Z, x)].
Definition sp_sorted : list (entry R R) := [Entry (1/2) 1 (0, 0)%Z].
Example C113_nonvacuous :
  (* front tracking, replicated, both processes store both cells *)
  ghost_layer sp_owner (fun _ _ => true) ex_shape /\ replicated 2 (fun _ => [(1/2, 1)]) [(1/2, 1)] /\
  std_sorted (collect_info_all (locate_on (fun _ _ => true) sp_around 1) [(1/2, 1)]) sp_sorted /\
  front_tracking_force sp_owner ex_shape (fun _ => sp_sorted) (fun _ => 3) 1%nat = 3 + 1/2 /\
  (* the point only on process 1, which does not own entry 1 *)
  distributed 2 (fun r => if Nat.eqb r 1 then [(1/2, 1)] else []) [(1/2, 1)] /\
  front_tracking_force sp_owner ex_shape (fun r => if Nat.eqb r 1 then sp_sorted else []) (fun _ => 3) 1%nat = 3 /\
  (* mixed: one and two processes *)
  mixed_force 1 (fun _ => 0%nat) (fun _ => 0%nat) sp_around ex_shape (fun _ => [(1/2, 1)]) 1 1 (fun _ _ => 1) (fun _ _ _ => 1) 0 (fun _ => 3) 1%nat = 3 + 1/2 /\
  mixed_force 2 sp_owner sp_cell sp_around ex_shape (fun _ => [(1/2, 1)]) 1 1 (fun _ _ => 1) (fun _ _ _ => 1) 0 (fun _ => 3) 1%nat = 3 + 1.
Proof.
  assert (T : tnorm 1 (fun _ => 1) = 1) by (unfold tnorm; cbn; replace (0 + 1 * 1) with 1 by ring; apply sqrt_1).
  assert (SH : ex_shape (0, 0)%Z (1/2) 1 = 1/2) by (unfold ex_shape; cbn; lra).
  split; [intros g c p _; reflexivity|]. split; [intros r _; reflexivity|].
  split; [split; [apply Permutation_refl|repeat constructor]|].
  split. { unfold front_tracking_force, part, assemble_force. cbn - [ex_shape]. rewrite SH. lra. }
  split; [apply Permutation_refl|].
  split. { unfold front_tracking_force, part, assemble_force. cbn. lra. }
  split; unfold mixed_force, compress_add, part, mixed_added, mixed_value; cbn - [ex_shape tnorm]; rewrite T, SH; lra.
Qed.
