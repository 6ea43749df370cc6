(** * Sharp-interface solvers: C49 (grouping of points), C50 (surface force), C71 (right hand side), C72 (interface
    clock), C73 (phases), C74 (motion of the surface mesh), C75 (gravity of the mixed level set solver) *)
From Coq Require Import Reals List Bool ZArith Permutation Sorted Lia Lra Relations.
From Verif Require Import Num NumQ SumR Spec_TimeStepping Model_TimeStepping Proofs_TimeStepping Model_TwoPhaseClocks Properties_TwoPhaseClocks Model_SharpInterface.
Import ListNotations.
Open Scope R_scope.

(** ** Sorting order of cells *)
Lemma cell_eqb_spec a b : cell_eqb a b = true <-> a = b.
Proof.
  unfold cell_eqb. rewrite andb_true_iff, !Z.eqb_eq. destruct a, b; cbn. split; [intros [-> ->]; reflexivity|intro H; injection H; auto].
Qed.
Lemma cell_lt_irrefl a : ~ cell_lt a a.
Proof. unfold cell_lt. lia. Qed.
Lemma cell_lt_trans a b c : cell_lt a b -> cell_lt b c -> cell_lt a c.
Proof. unfold cell_lt. lia. Qed.
Lemma cell_total a b : ~ cell_lt b a -> a <> b -> cell_lt a b.
Proof.
  unfold cell_lt. intros H N. destruct a as [a1 a2], b as [b1 b2]; cbn in *.
  destruct (Z.eq_dec a1 b1), (Z.eq_dec a2 b2); subst; try lia. now elim N.
Qed.

(** ** C49 *)
(** what a user expects of the compressed arrays; [info] are the collected entries *)
Record csr_of {P W} (info : list (entry P W)) (cells : list cellid) (ptrs : list nat) (weights : list W) (points : list P) : Prop := {
  csr_increasing : forall i j, (i < j < length cells)%nat -> cell_lt (nth i cells ((-1)%Z,(-1)%Z)) (nth j cells ((-1)%Z,(-1)%Z));
  csr_nptrs : length ptrs = S (length cells);
  csr_first : nth 0 ptrs 0%nat = 0%nat;
  csr_last : nth (length cells) ptrs 0%nat = length info;
  csr_monotone : forall i, (i < length cells)%nat -> (nth i ptrs 0 < nth (S i) ptrs 0)%nat;
  csr_weights : length weights = length info;
  csr_points : length points = length info;
  (** the range of a cell holds exactly the entries collected for this cell, with multiplicity *)
  csr_range : forall i, (i < length cells)%nat ->
    Permutation (combine (view points ptrs i) (view weights ptrs i))
                (map (fun e => (en_point e, en_weight e)) (filter (fun e => cell_eqb (en_cell e) (nth i cells ((-1)%Z,(-1)%Z))) info));
  csr_all : forall e, In e info -> In (en_cell e) cells }.

Section Compress.
Context {P W : Type}.
Implicit Types (l : list (entry P W)).
Notation group := (cellid * list (entry P W))%type.
Definition goff (gs : list group) : nat := length (concat (map snd gs)).
(** offsets of the groups *)
Fixpoint offs (n : nat) (gs : list group) : list nat := match gs with [] => [] | g :: r => n :: offs (n + length (snd g)) r end.
Lemma offs_length n gs : length (offs n gs) = length gs.
Proof. revert n. induction gs; intro; cbn; auto. Qed.
Lemma offs_app n gs g : offs n (gs ++ [g]) = offs n gs ++ [(n + goff gs)%nat].
Proof.
  revert n. induction gs as [|a r IH]; intro n; cbn; [unfold goff; cbn; f_equal; lia|]. rewrite IH. unfold goff. cbn. rewrite app_length.
  f_equal. f_equal. f_equal. unfold goff. lia.
Qed.
Lemma goff_app gs hs : goff (gs ++ hs) = (goff gs + goff hs)%nat.
Proof. unfold goff. rewrite map_app, concat_app, app_length. reflexivity. Qed.
Definition good_group (g : group) : Prop := snd g <> [] /\ forall e, In e (snd g) -> en_cell e = fst g.
(** consecutive groups belong to different cells *)
Fixpoint adjacent (gs : list group) : Prop := match gs with a :: (b :: _) as r => fst a <> fst b /\ adjacent r | _ => True end.
Lemma adjacent_app gs a b : adjacent (gs ++ [a]) -> fst a <> fst b -> adjacent (gs ++ [a] ++ [b]).
Proof.
  induction gs as [|x r IH]; intros H N; [cbn; tauto|]. destruct r as [|y r]; [cbn in *; tauto|]. cbn in H |- *. cbn in IH. tauto.
Qed.
Lemma adjacent_swap gs a b : adjacent (gs ++ [a]) -> fst a = fst b -> adjacent (gs ++ [b]).
Proof.
  induction gs as [|x r IH]; intros H N; [cbn; tauto|]. destruct r as [|y r]; [cbn in *; rewrite <- N; tauto|]. cbn in H |- *. cbn in IH. tauto.
Qed.
Record cinv (done : list (entry P W)) (s : cstate P W) (gs : list group) : Prop := {
  ci_done : done = concat (map snd gs);
  ci_cells : cs_cells s = map fst gs;
  ci_ptrs : cs_ptrs s = offs 0 gs;
  ci_weights : cs_weights s = map en_weight done;
  ci_points : cs_points s = map en_point done;
  ci_good : Forall good_group gs;
  ci_adj : adjacent gs;
  ci_dummy : cs_dummy s = last (map fst gs) ((-1)%Z,(-1)%Z) }.
Lemma cinv_step done s gs e : cinv done s gs -> en_cell e <> ((-1)%Z,(-1)%Z) -> exists gs', cinv (done ++ [e]) (compress_step s e) gs'.
Proof.
  intros [A B C D E F G H] N. unfold compress_step.
  destruct (cell_eqb (cs_dummy s) (en_cell e)) eqn:Q; cbn [negb].
  - apply cell_eqb_spec in Q.
    destruct (exists_last (l := gs)) as (r & g & K). { intro K. subst gs. cbn in H. congruence. }
    subst gs. rewrite map_app in H. cbn in H. rewrite last_last in H.
    exists (r ++ [(fst g, snd g ++ [e])]).
    apply Forall_app in F as [F1 F2]. inversion F2 as [|? ? [G1 G2] _]; subst.
    constructor; cbn [cs_dummy cs_cells cs_ptrs cs_weights cs_points].
    + rewrite !map_app, !concat_app. cbn. rewrite !app_nil_r, app_assoc. reflexivity.
    + rewrite B, !map_app. reflexivity.
    + rewrite C, !offs_app. reflexivity.
    + rewrite D. symmetry. apply map_app.
    + rewrite E. symmetry. apply map_app.
    + apply Forall_app. split; [exact F1|]. constructor; [|constructor]. split; [cbn; now destruct (snd g)|].
      intros x X. cbn in X. apply in_app_iff in X as [X|[<-|[]]]; cbn; [now apply G2|]. congruence.
    + eapply adjacent_swap; [exact G|reflexivity].
    + rewrite map_app. cbn. rewrite last_last. exact H.
  - assert (NQ : cs_dummy s <> en_cell e) by (intro K; apply cell_eqb_spec in K; congruence).
    exists (gs ++ [(en_cell e, [e])]).
    constructor; cbn [cs_dummy cs_cells cs_ptrs cs_weights cs_points].
    + rewrite map_app, concat_app, A. cbn. reflexivity.
    + rewrite B, map_app. reflexivity.
    + rewrite C, offs_app, D, map_length, A. reflexivity.
    + rewrite D. symmetry. apply map_app.
    + rewrite E. symmetry. apply map_app.
    + apply Forall_app. split; [exact F|]. constructor; [|constructor]. split; [easy|]. cbn. intros x [<-|[]]. reflexivity.
    + destruct gs as [|g0 r0] using rev_ind; [exact I|]. rewrite <- app_assoc. apply adjacent_app; [exact G|].
      rewrite H, map_app in NQ. cbn in NQ. now rewrite last_last in NQ.
    + rewrite map_app. cbn. now rewrite last_last.
Qed.
Lemma cinv_fold l : (forall e, In e l -> en_cell e <> ((-1)%Z,(-1)%Z)) ->
  exists gs, cinv l (fold_left compress_step l (CState ((-1)%Z,(-1)%Z) [] [] [] [])) gs.
Proof.
  induction l as [|e l IH] using rev_ind; intro H.
  - exists []. constructor; cbn; auto.
  - destruct IH as [gs I]. { intros x X. apply H. apply in_app_iff. now left. }
    rewrite fold_left_app. cbn [fold_left]. apply cinv_step with gs; [exact I|]. apply H. apply in_app_iff. right. now left.
Qed.

(** sortedness of the groups *)
Lemma groups_sorted gs : Forall good_group gs -> adjacent gs ->
  StronglySorted (fun a b : entry P W => ~ cell_lt (en_cell b) (en_cell a)) (concat (map snd gs)) ->
  StronglySorted cell_lt (map fst gs).
Proof.
  induction gs as [|g r IH]; intros F A S; [constructor|].
  inversion F as [|? ? [G1 G2] F2]; subst. cbn [map concat] in *.
  assert (SR : StronglySorted (fun a b : entry P W => ~ cell_lt (en_cell b) (en_cell a)) (concat (map snd r))).
  { clear - S. induction (snd g) as [|x l IHl]; [exact S|]. inversion S; subst. auto. }
  assert (AR : adjacent r) by (destruct r; cbn in *; tauto).
  specialize (IH F2 AR SR). constructor; [exact IH|].
  destruct r as [|h r]; [constructor|]. cbn [map] in *.
  inversion F2 as [|? ? [H1 H2] F3]; subst.
  assert (L : cell_lt (fst g) (fst h)).
  { apply cell_total; [|now destruct A].
    destruct (snd g) as [|x lg] eqn:EG; [now elim G1|]. destruct (snd h) as [|y lh] eqn:EH; [now elim H1|].
    rewrite <- (G2 x (or_introl eq_refl)), <- (H2 y (or_introl eq_refl)).
    inversion S as [|? ? _ S2]; subst. rewrite Forall_forall in S2. apply S2. apply in_app_iff. right. cbn [map concat]. rewrite ?EH. now left. }
  constructor; [exact L|]. inversion IH as [|? ? _ IH2]; subst. rewrite Forall_forall in *. intros z Z.
  apply cell_lt_trans with (fst h); [exact L|now apply IH2].
Qed.
Lemma Strongly_nth (R0 : cellid -> cellid -> Prop) (l : list cellid) d : StronglySorted R0 l -> forall i j, (i < j < length l)%nat -> R0 (nth i l d) (nth j l d).
Proof.
  induction 1 as [|a l S IH F]; intros i j [I J]; [cbn in J; lia|]. cbn in J. destruct j as [|j]; [lia|]. destruct i as [|i]; cbn.
  - rewrite Forall_forall in F. apply F. apply nth_In. lia.
  - apply IH. lia.
Qed.
Lemma not_lt_trans a b c : ~ cell_lt b a -> ~ cell_lt c b -> ~ cell_lt c a.
Proof. unfold cell_lt. lia. Qed.
Lemma Sorted_strong l : Sorted (fun a b : entry P W => ~ cell_lt (en_cell b) (en_cell a)) l -> StronglySorted (fun a b : entry P W => ~ cell_lt (en_cell b) (en_cell a)) l.
Proof. apply Sorted_StronglySorted. intros a b c. apply not_lt_trans. Qed.

(** the ranges *)
Lemma nth_offs gs n i : (i < length gs)%nat -> nth i (offs n gs) 0%nat = (n + goff (firstn i gs))%nat.
Proof.
  revert n i. induction gs as [|g r IH]; intros n i H; [cbn in H; lia|]. destruct i as [|i]; [cbn; unfold goff; cbn; lia|].
  cbn [offs nth firstn]. cbn [length] in H. rewrite IH by lia. unfold goff. cbn [map concat]. rewrite app_length. lia.
Qed.
Lemma nth_ptrs gs i : (i <= length gs)%nat -> nth i (offs 0 gs ++ [goff gs]) 0%nat = goff (firstn i gs).
Proof.
  intro H. destruct (Nat.eq_dec i (length gs)) as [->|N].
  - rewrite app_nth2; rewrite offs_length; [|lia]. rewrite Nat.sub_diag. cbn. now rewrite firstn_all.
  - rewrite app_nth1 by (rewrite offs_length; lia). rewrite nth_offs by lia. lia.
Qed.
Lemma firstn_S_nth (gs : list group) i d : (i < length gs)%nat -> firstn (S i) gs = firstn i gs ++ [nth i gs d].
Proof.
  revert i. induction gs as [|g r IH]; intros i H; [cbn in H; lia|]. destruct i as [|i]; [reflexivity|]. cbn [firstn app nth].
  cbn in H. f_equal. apply IH. lia.
Qed.
Lemma split_nth (gs : list group) i d : (i < length gs)%nat -> gs = firstn i gs ++ nth i gs d :: skipn (S i) gs.
Proof.
  revert i. induction gs as [|g r IH]; intros i H; [cbn in H; lia|]. destruct i as [|i]; [reflexivity|]. cbn [firstn app nth skipn].
  cbn in H. f_equal. apply IH. lia.
Qed.
Lemma view_group {A} (f : entry P W -> A) gs i d : (i < length gs)%nat ->
  view (map f (concat (map snd gs))) (offs 0 gs ++ [goff gs]) i = map f (snd (nth i gs d)).
Proof.
  intro H. unfold view. rewrite (nth_ptrs gs (S i)) by exact H. rewrite (nth_ptrs gs i) by (apply Nat.lt_le_incl; exact H). rewrite (firstn_S_nth gs i d H), goff_app.
  assert (SP : map f (concat (map snd gs)) = map f (concat (map snd (firstn i gs ++ nth i gs d :: skipn (S i) gs)))) by (do 3 f_equal; apply split_nth; exact H).
  rewrite SP, map_app, concat_app, map_app. cbn [map concat]. rewrite map_app.
  assert (L : length (map f (concat (map snd (firstn i gs)))) = goff (firstn i gs)) by now rewrite map_length.
  rewrite skipn_app, L, Nat.sub_diag, skipn_all2 by (apply Nat.eq_le_incl; exact L). cbn [app skipn].
  match goal with |- firstn ?k _ = _ => replace k with (length (map f (snd (nth i gs d)))) end.
  2:{ rewrite (Nat.add_comm (goff (firstn i gs))), Nat.add_sub, map_length. unfold goff. cbn. rewrite app_nil_r. reflexivity. }
  rewrite firstn_app, Nat.sub_diag, firstn_all. cbn. apply app_nil_r.
Qed.
Lemma filter_groups gs i d : Forall good_group gs -> StronglySorted cell_lt (map fst gs) -> (i < length gs)%nat ->
  filter (fun e => cell_eqb (en_cell e) (fst (nth i gs d))) (concat (map snd gs)) = snd (nth i gs d).
Proof.
  intros F S H.
  assert (Z : forall j, (j < length gs)%nat -> filter (fun e => cell_eqb (en_cell e) (fst (nth i gs d))) (snd (nth j gs d)) = if Nat.eqb j i then snd (nth j gs d) else []).
  { intros j J. rewrite Forall_forall in F. destruct (F (nth j gs d) (nth_In _ _ J)) as [_ G].
    destruct (Nat.eqb_spec j i) as [->|N].
    - clear - G. induction (snd (nth i gs d)) as [|e l IH]; [reflexivity|]. cbn. rewrite (proj2 (cell_eqb_spec _ _) (G e (or_introl eq_refl))). f_equal. apply IH. intros x X. apply G. now right.
    - assert (NE : fst (nth j gs d) <> fst (nth i gs d)).
      { rewrite <- !(map_nth fst). intro E. destruct (Nat.lt_ge_cases j i) as [L|L].
        - assert (X := Strongly_nth _ _ (fst d) S j i). rewrite map_length in X. specialize (X ltac:(lia)). rewrite E in X. now apply cell_lt_irrefl in X.
        - assert (X := Strongly_nth _ _ (fst d) S i j). rewrite map_length in X. specialize (X ltac:(lia)). rewrite E in X. now apply cell_lt_irrefl in X. }
      clear - G NE. induction (snd (nth j gs d)) as [|e l IH]; [reflexivity|]. cbn. destruct (cell_eqb (en_cell e) (fst (nth i gs d))) eqn:Q.
      + apply cell_eqb_spec in Q. elim NE. rewrite <- Q. symmetry. apply G. now left.
      + apply IH. intros x X. apply G. now right. }
  clear F S.
  assert (K : forall (hs : list group) i, (i < length hs)%nat -> forall (p : entry P W -> bool),
    (forall j, (j < length hs)%nat -> filter p (snd (nth j hs d)) = if Nat.eqb j i then snd (nth j hs d) else []) ->
    filter p (concat (map snd hs)) = snd (nth i hs d)).
  { clear. induction hs as [|g r IH]; intros i H p Z; [cbn in H; lia|]. cbn [map concat]. rewrite filter_app.
    pose proof (Z 0%nat ltac:(cbn; lia)) as Z0. cbn [nth] in Z0. rewrite Z0. destruct i as [|i].
    - cbn [Nat.eqb nth]. rewrite <- app_nil_r. f_equal.
      assert (ZZ : forall j, (j < length r)%nat -> filter p (snd (nth j r d)) = []).
      { intros j J. specialize (Z (S j) ltac:(cbn; lia)). exact Z. }
      clear - ZZ. induction r as [|h r IH]; [reflexivity|]. cbn [map concat]. rewrite filter_app. pose proof (ZZ 0%nat ltac:(cbn; lia)) as Z1. cbn [nth] in Z1. rewrite Z1. cbn [app].
      apply IH. intros j J. exact (ZZ (S j) ltac:(cbn; lia)).
    - cbn [Nat.eqb nth app]. apply IH; [cbn in H; lia|]. intros j J. specialize (Z (S j) ltac:(cbn; lia)). exact Z. }
  apply K; assumption.
Qed.
Lemma perm_filter (p : entry P W -> bool) l m : Permutation l m -> Permutation (filter p l) (filter p m).
Proof.
  induction 1; cbn; auto.
  - destruct (p x); auto.
  - destruct (p x), (p y); auto. constructor.
  - eapply Permutation_trans; eauto.
Qed.
Lemma combine_map (l : list (entry P W)) : combine (map en_point l) (map en_weight l) = map (fun e => (en_point e, en_weight e)) l.
Proof. induction l; cbn; congruence. Qed.

(** C49: the compressed arrays of every list of entries, whatever the sorting algorithm does with equal cells *)
Theorem C49_grouping : forall (info info' : list (entry P W)),
  (forall e, In e info -> (0 <= fst (en_cell e))%Z) -> std_sorted info info' ->
  let '(cells, ptrs, weights, points) := compress info' in csr_of info cells ptrs weights points.
Proof.
  intros info info' N [PM SO]. unfold compress.
  destruct (cinv_fold info') as [gs I].
  { intros e E Q. apply Permutation_sym in PM. specialize (N e (Permutation_in _ PM E)). rewrite Q in N. cbn in N. lia. }
  destruct I as [A B C D E F G H].
  set (s := fold_left compress_step info' _) in *. clearbody s.
  assert (WL : length (cs_weights s) = goff gs) by (rewrite D, map_length, A; reflexivity).
  assert (SS : StronglySorted cell_lt (map fst gs)).
  { apply groups_sorted; [exact F|exact G|]. rewrite <- A. now apply Sorted_strong. }
  assert (LI : length info = goff gs) by (rewrite (Permutation_length PM), A; reflexivity).
  rewrite B, C, WL, D, E.
  constructor.
  - intros i j IJ. now apply Strongly_nth.
  - rewrite app_length, offs_length, map_length. cbn. lia.
  - rewrite nth_ptrs by lia. reflexivity.
  - rewrite map_length, nth_ptrs, firstn_all by lia. now rewrite LI.
  - intros i J. rewrite map_length in J. rewrite !nth_ptrs by lia. rewrite (firstn_S_nth gs i ((-1)%Z,(-1)%Z,[]) J), goff_app.
    rewrite Forall_forall in F. destruct (F _ (nth_In gs ((-1)%Z,(-1)%Z,[]) J)) as [NE _].
    unfold goff. cbn [map concat]. rewrite app_nil_r. destruct (snd (nth i gs ((-1)%Z,(-1)%Z,[]))); [now elim NE|]. cbn. lia.
  - rewrite map_length, A, LI. reflexivity.
  - rewrite map_length, A, LI. reflexivity.
  - intros i J. rewrite map_length in J. rewrite A.
    rewrite !(view_group _ gs i (((-1)%Z,(-1)%Z),[]) J). rewrite combine_map.
    apply Permutation_map.
    change ((-1)%Z,(-1)%Z) with (fst (((-1)%Z,(-1)%Z), @nil (entry P W))). rewrite map_nth.
    rewrite <- (filter_groups gs i (((-1)%Z,(-1)%Z),[]) F SS J) at 1. rewrite <- A. apply perm_filter. now apply Permutation_sym.
  - intros e X. apply (Permutation_in _ PM) in X. rewrite A in X. apply in_concat in X as (l & X1 & X2).
    apply in_map_iff in X1 as (g & <- & X1). rewrite Forall_forall in F. destruct (F g X1) as [_ Q]. rewrite (Q e X2). now apply in_map.
Qed.
End Compress.
(** for the variant with one cell per point no point is lost: as many entries as points, and the entries of a cell are
    the points located in it *)
Theorem C49_one_cell_per_point : forall {X P W} (locate : X -> cellid * P) (pts : list (X * W)) info',
  (forall x, (0 <= fst (fst (locate x)))%Z) -> std_sorted (collect_info_one locate pts) info' ->
  let '(cells, ptrs, weights, points) := compress info' in
  nth (length cells) ptrs 0%nat = length pts /\
  forall i, (i < length cells)%nat -> Permutation (combine (view points ptrs i) (view weights ptrs i))
    (map (fun xw => (snd (locate (fst xw)), snd xw)) (filter (fun xw => cell_eqb (fst (locate (fst xw))) (nth i cells ((-1)%Z,(-1)%Z))) pts)).
Proof.
  intros X P W locate pts info' N S. pose proof (C49_grouping (collect_info_one locate pts) info') as G.
  destruct (compress info') as [[[cells ptrs] weights] points]. destruct G as [_ _ _ L _ _ _ R _]; [|exact S|].
  { intros e E. apply in_map_iff in E as (xw & <- & _). cbn. apply N. }
  split. { rewrite L. apply map_length. }
  intros i I. specialize (R i I). eapply Permutation_trans; [exact R|].
  unfold collect_info_one. clear. induction pts as [|a l IH]; [constructor|]. cbn [map filter en_cell].
  destruct (cell_eqb (fst (locate (fst a))) (nth i cells ((-1)%Z, (-1)%Z))); cbn [map en_point en_weight]; auto.
Qed.
Example C49_nonvacuous : let info := [Entry 1%nat 10%nat (0,3)%Z; Entry 2%nat 20%nat (0,1)%Z; Entry 3%nat 30%nat (0,3)%Z] in
  let info' := [Entry 2%nat 20%nat (0,1)%Z; Entry 1%nat 10%nat (0,3)%Z; Entry 3%nat 30%nat (0,3)%Z] in
  std_sorted info info' /\ compress info' = ([(0,1)%Z; (0,3)%Z], [0%nat; 1%nat; 3%nat], [20%nat; 10%nat; 30%nat], [2%nat; 1%nat; 3%nat]).
Proof.
  cbv zeta. split; [|reflexivity]. split; [constructor|]. repeat constructor; cbn; unfold cell_lt; cbn; lia.
Qed.

(** ** C50: the surface force *)
Lemma fold_plus (f : nat -> R) l a : fold_left (fun acc i => acc + f i) l a = a + suml l f.
Proof. revert a. induction l as [|i l IH]; intro a; cbn; [lra|]. rewrite IH. lra. Qed.
Lemma suml_perm {A} (f : A -> R) l m : Permutation l m -> suml l f = suml m f.
Proof. induction 1; cbn; lra. Qed.
Lemma suml_flat_map {A B} (h : A -> list B) (f : B -> R) l : suml (flat_map h l) f = suml l (fun x => suml (h x) f).
Proof. induction l as [|a l IH]; cbn; [reflexivity|]. rewrite suml_app, IH. reflexivity. Qed.
(** sum over the entries, cell by cell *)
Lemma suml_by_cells {P W} (F : entry P W -> R) (info : list (entry P W)) (cells : list cellid) d :
  NoDup cells -> (forall e, In e info -> In (en_cell e) cells) ->
  suml (seq 0 (length cells)) (fun i => suml (filter (fun e => cell_eqb (en_cell e) (nth i cells d)) info) F) = suml info F.
Proof.
  intros ND. induction info as [|e l IH]; intro A.
  - cbn. apply suml_zero. reflexivity.
  - cbn [suml filter]. rewrite <- IH by (intros x X; apply A; now right).
    destruct (In_nth cells (en_cell e) d (A e (or_introl eq_refl))) as (k & K1 & K2).
    transitivity (suml (seq 0 (length cells)) (fun i => (if Nat.eqb i k then F e else 0) + suml (filter (fun e0 => cell_eqb (en_cell e0) (nth i cells d)) l) F)).
    + apply suml_ext. intros i I. apply in_seq in I. destruct (cell_eqb (en_cell e) (nth i cells d)) eqn:Q.
      * apply cell_eqb_spec in Q. assert (i = k) as -> by (apply (proj1 (NoDup_nth cells d) ND); [lia|lia|congruence]). rewrite Nat.eqb_refl. reflexivity.
      * destruct (Nat.eqb_spec i k) as [->|N]; [|ring]. rewrite <- K2 in Q. rewrite (proj2 (cell_eqb_spec _ _) K2) in Q || idtac. exfalso. rewrite (proj2 (cell_eqb_spec (nth k cells d) (nth k cells d)) eq_refl) in Q. discriminate.
    + rewrite suml_plus. f_equal. clear - K1.
      assert (G : forall a n, (a <= k < a + n)%nat -> suml (seq a n) (fun i => if Nat.eqb i k then F e else 0) = F e).
      { intros a n. revert a. induction n as [|n IHn]; intros a H; [lia|]. cbn [seq suml]. destruct (Nat.eqb_spec a k) as [->|N].
        - rewrite suml_zero; [ring|]. intros x X. apply in_seq in X. destruct (Nat.eqb_spec x k); [lia|reflexivity].
        - rewrite IHn by lia. ring. }
      apply G. lia.
Qed.
(** the assembled force is the sum over the collected entries, whatever the order of the entries *)
Theorem C50_force_is_sum : forall {P} (shape : cellid -> P -> nat -> R) (info info' : list (entry P R)) v g,
  (forall e, In e info -> (0 <= fst (en_cell e))%Z) -> std_sorted info info' ->
  assemble_force shape (compress info') v g = v g + suml info (fun e => en_weight e * shape (en_cell e) (en_point e) g).
Proof.
  intros P shape info info' v g N S. pose proof (C49_grouping info info' N S) as G.
  destruct (compress info') as [[[cells ptrs] weights] points]. destruct G as [INC _ _ _ _ _ _ R A]. unfold assemble_force.
  rewrite fold_plus. f_equal.
  assert (ND : NoDup cells).
  { apply (NoDup_nth cells ((-1)%Z,(-1)%Z)). intros i j I J E. destruct (Nat.lt_trichotomy i j) as [L|[L|L]]; [|exact L|].
    - specialize (INC i j ltac:(lia)). rewrite E in INC. now apply cell_lt_irrefl in INC.
    - specialize (INC j i ltac:(lia)). rewrite E in INC. now apply cell_lt_irrefl in INC. }
  rewrite <- (suml_by_cells (fun e => en_weight e * shape (en_cell e) (en_point e) g) info cells ((-1)%Z,(-1)%Z) ND A).
  apply suml_ext. intros i I. apply in_seq in I. rewrite (suml_perm _ _ _ (R i ltac:(lia))). rewrite suml_map. cbn [fst snd].
  apply suml_ext. intros e E. apply filter_In in E as [_ E]. apply cell_eqb_spec in E. rewrite E. reflexivity.
Qed.
(** number of cells found around a point *)
Definition found {X P} (locate : X -> option (list (cellid * P))) (x : X) : nat := match locate x with Some l => length l | None => 0%nat end.
(** Front tracking: with continuous shape functions the weight of every surface point is counted once for every background
    cell found around the point (zero times if the search fails) *)
Theorem C50_front_tracking_multiplicity : forall {X P} (locate : X -> option (list (cellid * P))) (shape : cellid -> P -> nat -> R)
  (psi : nat -> X -> R) (pts : list (X * R)) info' v g,
  (forall x l c p, locate x = Some l -> In (c, p) l -> (0 <= fst c)%Z /\ shape c p g = psi g x) ->
  std_sorted (collect_info_all locate pts) info' ->
  assemble_force shape (compress info') v g = v g + suml pts (fun xw => INR (found locate (fst xw)) * (snd xw * psi g (fst xw))).
Proof.
  intros X P locate shape psi pts info' v g H S. rewrite (C50_force_is_sum shape (collect_info_all locate pts) info' v g); [|
    intros e E; apply in_flat_map in E as (xw & _ & E); destruct (locate (fst xw)) as [l|] eqn:Q; [|easy];
    apply in_map_iff in E as ([c p] & <- & E); exact (proj1 (H _ _ _ _ Q E))|exact S].
  f_equal. unfold collect_info_all. rewrite suml_flat_map. apply suml_ext. intros [x w] _. cbn [fst snd]. unfold found.
  destruct (locate x) as [l|] eqn:Q; [|cbn; ring]. rewrite suml_map. cbn [en_weight en_cell en_point].
  assert (G : forall c p, In (c, p) l -> shape c p g = psi g x) by (intros c p I; exact (proj2 (H _ _ _ _ Q I))). clear - G.
  induction l as [|[c p] l IH]; [cbn; ring|]. cbn [suml length]. rewrite S_INR, IH by (intros; apply G; now right). cbn [fst snd].
  rewrite (G c p (or_introl eq_refl)). ring.
Qed.
(** so the quadrature of the surface is reproduced when every point lies in exactly one cell *)
Theorem C50_front_tracking_generic : forall {X P} (locate : X -> option (list (cellid * P))) (shape : cellid -> P -> nat -> R)
  (psi : nat -> X -> R) (pts : list (X * R)) info' v g,
  (forall x l c p, locate x = Some l -> In (c, p) l -> (0 <= fst c)%Z /\ shape c p g = psi g x) ->
  std_sorted (collect_info_all locate pts) info' ->
  (forall xw, In xw pts -> found locate (fst xw) = 1%nat) ->
  assemble_force shape (compress info') v g = v g + suml pts (fun xw => snd xw * psi g (fst xw)).
Proof.
  intros X P locate shape psi pts info' v g H S O. rewrite (C50_front_tracking_multiplicity locate shape psi pts info' v g H S). f_equal.
  apply suml_ext. intros xw I. rewrite (O xw I). cbn. ring.
Qed.
(** one dimensional background mesh with cells [0,1], [1,2] and hat functions; reference coordinate in [0,1] *)
Definition ex_locate (x : R) : option (list (cellid * R)) :=
  if Rlt_dec x 0 then None else if Rlt_dec x 1 then Some [((0,0)%Z, x)] else if Req_EM_T x 1 then Some [((0,0)%Z, 1); ((0,1)%Z, 0)]
  else if Rle_dec x 2 then Some [((0,1)%Z, x - 1)] else None.
Definition ex_shape (c : cellid) (p : R) (g : nat) : R :=
  if Z.eqb (snd c) 0 then match g with 0%nat => 1 - p | 1%nat => p | _ => 0 end else match g with 1%nat => 1 - p | 2%nat => p | _ => 0 end.
(** Violated: the surface point x = 1 on the face between the two cells is counted twice, x = 3 outside of the mesh is dropped without an error *)
Theorem C50_violation_face : 
  (forall info', std_sorted (collect_info_all ex_locate [(1, 1)]) info' -> forall v, assemble_force ex_shape (compress info') v 1%nat = v 1%nat + 2) /\
  (forall info', std_sorted (collect_info_all ex_locate [(3, 1)]) info' -> forall v g, assemble_force ex_shape (compress info') v g = v g) /\
  (forall info', std_sorted (collect_info_all ex_locate [(1/2, 1)]) info' -> forall v, assemble_force ex_shape (compress info') v 1%nat = v 1%nat + 1/2).
Proof.
  unfold collect_info_all. cbn [flat_map fst snd]. unfold ex_locate.
  repeat split; intros info' S.
  - intro v. destruct (Rlt_dec 1 0); [lra|]. destruct (Rlt_dec 1 1); [lra|]. destruct (Req_EM_T 1 1); [|lra].
    rewrite (fun NN => C50_force_is_sum ex_shape _ info' v _ NN S); [cbn; lra|intros en E; cbn in E; destruct E as [<-|[<-|[]]]; cbn; lia].
  - intros v g. destruct (Rlt_dec 3 0); [lra|]. destruct (Rlt_dec 3 1); [lra|]. destruct (Req_EM_T 3 1); [lra|]. destruct (Rle_dec 3 2); [lra|].
    rewrite (fun NN => C50_force_is_sum ex_shape _ info' v _ NN S); [cbn; lra|intros en E; cbn in E; destruct E].
  - intro v. destruct (Rlt_dec (1/2) 0); [lra|]. destruct (Rlt_dec (1/2) 1); [|lra].
    rewrite (fun NN => C50_force_is_sum ex_shape _ info' v _ NN S); [cbn; lra|intros en E; cbn in E; destruct E as [<-|[]]; cbn; lia].
Qed.

(** dependence on the surface tension coefficient: linear for front tracking, marching cubes and the regularized force *)
Theorem C50_linear_in_surface_tension : forall sigma kappa n JxW c dim nls ls grad,
  front_tracking_value sigma kappa n JxW c = sigma * front_tracking_value 1 kappa n JxW c /\
  marching_value dim sigma kappa n JxW c = sigma * marching_value dim 1 kappa n JxW c /\
  regularized_value nls sigma kappa ls grad JxW c = sigma * regularized_value nls 1 kappa ls grad JxW c.
Proof. intros. unfold front_tracking_value, marching_value, regularized_value. repeat split; ring. Qed.
(** magnitude: over a piece of surface with curvature kappa the front-tracking force is - sigma * kappa * (integral of the normal), so a
    closed surface of constant curvature feels no net force; the regularized force is sigma * kappa * half the gradient of the level set
    function (gradient of the indicator (ls + 1) / 2) times the volume of the point *)
Theorem C50_front_tracking_total : forall {Q} (pts : list Q) (n : Q -> nat -> R) (JxW : Q -> R) sigma kappa c,
  suml pts (fun q => front_tracking_value sigma kappa (n q) (JxW q) c) = - sigma * kappa * suml pts (fun q => n q c * JxW q) /\
  (suml pts (fun q => n q c * JxW q) = 0 -> suml pts (fun q => front_tracking_value sigma kappa (n q) (JxW q) c) = 0).
Proof.
  intros Q pts n JxW sigma kappa c.
  assert (E : suml pts (fun q => front_tracking_value sigma kappa (n q) (JxW q) c) = - sigma * kappa * suml pts (fun q => n q c * JxW q)).
  { rewrite <- suml_scal. apply suml_ext. intros q _. unfold front_tracking_value. ring. }
  split; [exact E|]. intros H. rewrite E, H. ring.
Qed.
Theorem C50_regularized_gradient : forall nls sigma kappa ls grad JxW c,
  sumn nls (fun j => grad j c) = 0 ->
  regularized_value nls sigma kappa ls grad JxW c = sigma * kappa * (sumn nls (fun j => ls j * grad j c) / 2) * JxW.
Proof.
  intros nls sigma kappa ls grad JxW c H. unfold regularized_value.
  rewrite (sumn_ext nls _ (fun j => 1/2 * (ls j * grad j c) + 1/2 * grad j c)) by (intros; field).
  rewrite sumn_plus, !sumn_scal, H. field.
Qed.
(** hence for the assembled vectors *)
Theorem C50_assembled_linear : forall {X P} (locate : X -> option (list (cellid * P))) (shape : cellid -> P -> nat -> R)
  (pts : list (X * (R * (nat -> R) * R))) c sigma g info' info1,
  (forall x l c p, locate x = Some l -> In (c, p) l -> (0 <= fst c)%Z) ->
  let weights s := map (fun xd => match snd xd with (kappa, n, JxW) => (fst xd, front_tracking_value s kappa n JxW c) end) pts in
  std_sorted (collect_info_all locate (weights sigma)) info' -> std_sorted (collect_info_all locate (weights 1)) info1 ->
  assemble_force shape (compress info') (fun _ => 0) g = sigma * assemble_force shape (compress info1) (fun _ => 0) g.
Proof.
  intros X P locate shape pts c sigma g info' info1 H weights S1 S2.
  assert (NN : forall s e, In e (collect_info_all locate (weights s)) -> (0 <= fst (en_cell e))%Z).
  { intros s e E. apply in_flat_map in E as (xw & _ & E). destruct (locate (fst xw)) as [l|] eqn:Q; [|easy].
    apply in_map_iff in E as ([c0 p] & <- & E). exact (H _ _ _ _ Q E). }
  rewrite (C50_force_is_sum shape _ info' _ g (NN sigma) S1), (C50_force_is_sum shape _ info1 _ g (NN 1) S2).
  rewrite !Rplus_0_l. unfold collect_info_all, weights. rewrite !suml_flat_map, !suml_map, <- suml_scal. apply suml_ext.
  intros [x [[kappa n] JxW]] _. cbn [fst snd]. destruct (locate x) as [l|]; [|cbn; ring]. rewrite !suml_map, <- suml_scal. apply suml_ext.
  intros [c0 p] _. cbn [en_weight en_cell en_point fst snd]. unfold front_tracking_value. ring.
Qed.
(** Violated for the mixed level set: quadratic. The values agree with those of the marching cubes variant of the same
    geometry only for sigma in {0, 1} or a vanishing force *)
Theorem C50_violation_quadratic : forall dim sigma kappa n JxW c,
  mixed_value dim sigma kappa n JxW c = sigma * marching_value dim sigma kappa n JxW c /\
  (forall s, mixed_value dim (s * sigma) kappa n JxW c = s * s * mixed_value dim sigma kappa n JxW c) /\
  (mixed_value dim sigma kappa n JxW c = marching_value dim sigma kappa n JxW c <->
   sigma = 0 \/ sigma = 1 \/ marching_value dim 1 kappa n JxW c = 0).
Proof.
  intros. unfold mixed_value, marching_value. split; [ring|]. split; [intro s; ring|].
  set (m := n c / tnorm dim n * kappa * JxW).
  replace (sigma * sigma * (n c / tnorm dim n) * kappa * JxW) with (sigma * sigma * m) by (unfold m; ring).
  replace (sigma * (n c / tnorm dim n) * kappa * JxW) with (sigma * m) by (unfold m; ring).
  replace (1 * (n c / tnorm dim n) * kappa * JxW) with m by (unfold m; ring). split.
  - intro E. assert (F : sigma * ((sigma - 1) * m) = 0) by lra. apply Rmult_integral in F as [F|F]; [now left|].
    apply Rmult_integral in F as [F|F]; [right; left; lra|right; right; exact F].
  - intros [->|[->|E]]; [ring|ring|rewrite E; ring].
Qed.
Example C50_nonvacuous : mixed_value 2 (1/10) 2 (fun c => match c with 0%nat => 1 | _ => 0 end) 1 0%nat = 2/100 /\
  marching_value 2 (1/10) 2 (fun c => match c with 0%nat => 1 | _ => 0 end) 1 0%nat = 2/10.
Proof.
  unfold mixed_value, marching_value, tnorm. cbn. replace (0 + 1 * 1 + 0 * 0) with 1 by ring. rewrite sqrt_1. split; field.
Qed.

Example C50_regularized_nonvacuous : let grad := (fun (j : nat) (_ : nat) => if Nat.eqb j 0 then -4 else 4) in
  sumn 2 (fun j => grad j 0%nat) = 0 /\ regularized_value 2 3 2 (fun j => if Nat.eqb j 0 then -1 else 1) grad (1/8) 0 = 3.
Proof. unfold regularized_value. cbn. split; lra. Qed.

(** ** C71: the right hand side handed to the flow solver *)
Definition con_free (con : constr) (g : nat) : Prop := con g = None.
(** it depends on the present densities and the present surface only, not on the content of the vector (previous steps) *)
Theorem C71_history_independent : forall {P} qi con gravity density diff mesh (shape : cellid -> P -> nat -> R) out v1 v2 g,
  sharp_user_rhs qi con gravity density diff mesh shape out v1 g = sharp_user_rhs qi con gravity density diff mesh shape out v2 g.
Proof.
  intros. unfold sharp_user_rhs, set_zero. destruct (con g); [reflexivity|]. unfold surface_force, assemble_force.
  destruct out as [[[cells ptrs] weights] points]. rewrite !fold_plus. reflexivity.
Qed.
(** it is the sum of gravity and surface force on the free velocity unknowns, zero on constrained ones *)
Theorem C71_sum_of_forces : forall {P} qi con gravity density diff mesh (shape : cellid -> P -> nat -> R) info info' v g,
  (forall e, In e info -> (0 <= fst (en_cell e))%Z) -> std_sorted info info' ->
  sharp_user_rhs qi con gravity density diff mesh shape (compress info') v g =
  match con g with
  | None => gravity_force qi con gravity density diff mesh (fun _ => 0) g + suml info (fun e => en_weight e * shape (en_cell e) (en_point e) g)
  | Some _ => 0 end.
Proof.
  intros P qi con gravity density diff mesh shape info info' v g N S. unfold sharp_user_rhs, set_zero. destruct (con g); [reflexivity|].
  unfold surface_force. rewrite (C50_force_is_sum shape info info' _ g N S). reflexivity.
Qed.

Lemma sumn_scatter_free con n h x : (h < n)%nat -> con h = None -> sumn n (fun g => scatter con h g x) = x.
Proof.
  intros H C. unfold scatter. rewrite C. rewrite (sumn_delta n h); [now rewrite Nat.eqb_refl|exact H|].
  intros i _ N. destruct (Nat.eqb_spec h i); [congruence|reflexivity].
Qed.
(** hanging node constraints: masters are free and the coefficients sum to one *)
Definition hanging_only (con : constr) (n : nat) : Prop :=
  forall h l, con h = Some l -> suml l snd = 1 /\ forall mw, In mw l -> (fst mw < n)%nat /\ con (fst mw) = None.
Lemma sumn_scatter con n h x : hanging_only con n -> (h < n)%nat -> sumn n (fun g => scatter con h g x) = x.
Proof.
  intros HO H. destruct (con h) as [l|] eqn:C; [|now apply sumn_scatter_free].
  unfold scatter. rewrite C. destruct (HO h l C) as [S1 M]. clear C HO.
  rewrite <- (suml_sumn l n (fun mw g => if Nat.eqb (fst mw) g then x * snd mw else 0)).
  transitivity (x * suml l snd); [|rewrite S1; ring]. rewrite <- suml_scal. apply suml_ext. intros mw I. destruct (M mw I) as [M1 _].
  rewrite (sumn_delta n (fst mw)); [now rewrite Nat.eqb_refl|exact M1|]. intros i _ N. destruct (Nat.eqb_spec (fst mw) i); [congruence|reflexivity].
Qed.
(** total gravity force: the weight of the fluid, also on meshes with hanging nodes *)
Theorem C71_total_weight : forall con gravity density diff mesh n v,
  hanging_only con n -> (forall c i, In c mesh -> (i < rc_n c)%nat -> (rc_dof c i < n)%nat) ->
  (forall c q, In c mesh -> sumn (rc_n c) (fun i => ru_shape (rc_rule c 0) q i) = 1) ->
  sumn n (gravity_force 0 con gravity density diff mesh v) =
  - gravity * suml mesh (fun c => sumn (ru_nq (rc_rule c 0)) (fun q => (if Req_EM_T diff 0 then density else rc_rho c q) * ru_JxW (rc_rule c 0) q)).
Proof.
  intros con gravity density diff mesh n v HO D PU. unfold gravity_force. rewrite sumn_plus, sumn_0, Rplus_0_l.
  rewrite <- (suml_sumn mesh n (fun c g => sumn (rc_n c) (fun i => scatter con (rc_dof c i) g _))). rewrite <- suml_scal. apply suml_ext. intros c C.
  rewrite sumn_swap. rewrite (sumn_ext _ _ _ (fun i I => sumn_scatter con n (rc_dof c i) _ HO (D c i C I))).
  rewrite sumn_swap, <- sumn_scal. apply sumn_ext. intros q Q.
  rewrite (sumn_ext _ _ (fun i => (- (gravity * (if Req_EM_T diff 0 then density else rc_rho c q)) * ru_JxW (rc_rule c 0) q) * ru_shape (rc_rule c 0) q i)) by (intros; ring).
  rewrite sumn_scal. setoid_rewrite (PU c q C). ring.
Qed.
(** the surface force is not treated in this way: its share of the constrained unknowns is lost. [a e]: the sum of the
    shape functions of hanging nodes at the point *)
Definition lost_share {P} (con : constr) n (shape : cellid -> P -> nat -> R) (e : entry P R) : R :=
  sumn n (fun g => if con g then shape (en_cell e) (en_point e) g else 0).
Theorem C71_total_surface_force_partial : forall {P} con n (shape : cellid -> P -> nat -> R) info info',
  (forall e, In e info -> (0 <= fst (en_cell e))%Z) -> std_sorted info info' ->
  (forall e, In e info -> sumn n (shape (en_cell e) (en_point e)) = 1) ->
  sumn n (set_zero con (surface_force shape (compress info') (fun _ => 0))) = suml info (fun e => en_weight e * (1 - lost_share con n shape e)) /\
  ((forall e, In e info -> lost_share con n shape e = 0) ->
   sumn n (set_zero con (surface_force shape (compress info') (fun _ => 0))) = suml info (@en_weight P R)).
Proof.
  intros P con n shape info info' N S PU.
  assert (A : sumn n (set_zero con (surface_force shape (compress info') (fun _ => 0))) = suml info (fun e => en_weight e * (1 - lost_share con n shape e))).
  { rewrite (sumn_ext n _ (fun g => suml info (fun e => en_weight e * (if con g then 0 else shape (en_cell e) (en_point e) g)))).
    - rewrite <- (suml_sumn info n (fun e g => en_weight e * (if con g then 0 else shape (en_cell e) (en_point e) g))). apply suml_ext. intros e E.
      rewrite sumn_scal. f_equal. transitivity (sumn n (shape (en_cell e) (en_point e)) - lost_share con n shape e); [|rewrite (PU e E); reflexivity].
      unfold lost_share. rewrite <- sumn_minus. apply sumn_ext. intros g _. destruct (con g); ring.
    - intros g _. unfold set_zero, surface_force. destruct (con g); [symmetry; apply suml_zero; intros; ring|].
      rewrite (C50_force_is_sum shape info info' _ g N S). ring. }
  split; [exact A|]. intro Z. rewrite A. apply suml_ext. intros e E. rewrite (Z e E). ring.
Qed.
(** Violated with hanging nodes: unknown 1 is the mean of 0 and 2; a unit force applied at that node vanishes, while
    a distribution to the masters keeps it *)
Definition ex_con : constr := fun g => if Nat.eqb g 1 then Some [(0%nat, 1/2); (2%nat, 1/2)] else None.
Theorem C71_violation_hanging_node : hanging_only ex_con 3 /\
  let info := [Entry 1 1 (0,0)%Z] in
  std_sorted info info /\ sumn 3 (ex_shape (0,0)%Z 1) = 1 /\
  suml info (@en_weight R R) = 1 /\
  sumn 3 (set_zero ex_con (surface_force ex_shape (compress info) (fun _ => 0))) = 0 /\
  sumn 3 (fun g => scatter ex_con 1 g 1) = 1.
Proof.
  split. { intros h l H. unfold ex_con in H. destruct (Nat.eqb_spec h 1); [|discriminate]. injection H as <-. split; [cbn; lra|].
           intros mw [<-|[<-|[]]]; cbn; split; auto; lia. }
  cbv zeta. split; [split; [apply Permutation_refl|repeat constructor]|]. split; [cbn; lra|]. split; [cbn; lra|]. split.
  - unfold set_zero, ex_con. cbn. lra.
  - unfold scatter, ex_con. cbn. lra.
Qed.

(** ** C75: gravity of the mixed level set solver *)
(** the force a user expects: the density at the quadrature points of the rule in use *)
Definition expected_gravity (qi : nat) con (gravity : R) (field : position_t -> R) (mesh : list rcell) (g : nat) : R :=
  suml mesh (fun c => sumn (rc_n c) (fun i => scatter con (rc_dof c i) g
     (sumn (ru_nq (rc_rule c qi)) (fun q => - gravity * field (ru_point (rc_rule c qi) q) * ru_shape (rc_rule c qi) q i * ru_JxW (rc_rule c qi) q)))).
(** densities as the operator stores them: at the points of the velocity rule *)
Definition stores (field : position_t -> R) (mesh : list rcell) : Prop := forall c q, In c mesh -> (q < ru_nq (rc_rule c 0))%nat -> rc_rho c q = field (ru_point (rc_rule c 0) q).
(** front tracking integrates with the velocity rule: as expected *)
Theorem C75_front_tracking : forall con gravity density diff field mesh v g, stores field mesh -> diff <> 0 ->
  gravity_force 0 con gravity density diff mesh v g = expected_gravity 0 con gravity field mesh g.
Proof.
  intros con gravity density diff field mesh v g ST ND. unfold gravity_force, expected_gravity. rewrite Rplus_0_l. apply suml_ext. intros c C.
  apply sumn_ext. intros i I. f_equal. apply sumn_ext. intros q Q. destruct (Req_EM_T diff 0); [contradiction|]. rewrite (ST c q C Q). ring.
Qed.
(** the mixed level set solver integrates with the pressure rule: as expected when both fluids have the same density,
    or inside of one fluid *)
Theorem C75_mixed_constant_density_partial : forall con gravity rho mesh v g,
  (forall c q, In c mesh -> (q < ru_nq (rc_rule c 1))%nat -> rc_rho c q = rho) ->
  forall diff, gravity_force 1 con gravity rho diff mesh v g = expected_gravity 1 con gravity (fun _ => rho) mesh g.
Proof.
  intros con gravity rho mesh v g H diff. unfold gravity_force, expected_gravity. rewrite Rplus_0_l. apply suml_ext. intros c C.
  apply sumn_ext. intros i I. f_equal. apply sumn_ext. intros q Q. destruct (Req_EM_T diff 0); [ring|]. rewrite (H c q C Q). ring.
Qed.
(** Violated otherwise. Velocity degree 2 on the unit square: 3x3 Gauss points for the velocity, 2x2 for the pressure.
    One shape function equal to one gives the total force *)
Definition gs3 : R := sqrt (3/5) / 2.
Definition ex_rule0 : rule := Rule 9 (fun q d => let k := match d with 0%nat => (q mod 3)%nat | _ => (q / 3)%nat end in 1/2 + (INR k - 1) * gs3)
  (fun q => (if Nat.eqb (q mod 3) 1 then 8/18 else 5/18) * (if Nat.eqb (q / 3) 1 then 8/18 else 5/18)) (fun _ _ => 1).
Definition gs2 : R := sqrt (1/3) / 2.
Definition ex_rule1 : rule := Rule 4 (fun q d => let k := match d with 0%nat => (q mod 2)%nat | _ => (q / 2)%nat end in 1/2 + (2 * INR k - 1) * gs2)
  (fun _ => 1/4) (fun _ _ => 1).
Definition ex_field (x : position_t) : R := 1 + x 1%nat.
Definition ex_cell : rcell := RCell (fun i => match i with 0%nat => ex_rule0 | _ => ex_rule1 end) (fun q => ex_field (ru_point ex_rule0 q)) 1 (fun _ => 0%nat).
Theorem C75_violation_wrong_points : forall gravity v, let con : constr := fun _ => None in
  stores ex_field [ex_cell] /\
  expected_gravity 0 con gravity ex_field [ex_cell] 0%nat = - gravity * (3/2) /\
  expected_gravity 1 con gravity ex_field [ex_cell] 0%nat = - gravity * (3/2) /\
  gravity_force 1 con gravity 1 1 [ex_cell] v 0%nat = - gravity * (3/2 - 3/4 * gs3) /\
  (gravity <> 0 -> gravity_force 1 con gravity 1 1 [ex_cell] v 0%nat <> expected_gravity 1 con gravity ex_field [ex_cell] 0%nat).
Proof.
  intros gravity v con.
  assert (G : 0 < gs3). { unfold gs3. assert (0 < sqrt (3/5)) by (apply sqrt_lt_R0; lra). lra. }
  assert (A : gravity_force 1 con gravity 1 1 [ex_cell] v 0%nat = - gravity * (3/2 - 3/4 * gs3)).
  { unfold gravity_force, scatter, con, ex_cell, ex_field, ex_rule0, ex_rule1. destruct (Req_EM_T 1 0); [lra|]. cbn. field. }
  assert (B : expected_gravity 1 con gravity ex_field [ex_cell] 0%nat = - gravity * (3/2)).
  { unfold expected_gravity, scatter, con, ex_cell, ex_field, ex_rule0, ex_rule1. cbn. field. }
  split. { intros c q [<-|[]] Q. reflexivity. }
  split. { unfold expected_gravity, scatter, con, ex_cell, ex_field, ex_rule0, ex_rule1. cbn. field. }
  split; [exact B|]. split; [exact A|]. intros NG E. rewrite A, B in E. assert (gravity * gs3 = 0) by lra. apply Rmult_integral in H as [H|H]; lra.
Qed.

(** ** C73: the phases *)
(** mixed level set: the indicator is (ls + 1)/2 with the finite element value, no clipping; the stored values of a
    previous call survive if both differences vanish *)
Theorem C73_interior_value : forall prop pd dd vd n con ls shape stored,
  dd <> 0 \/ vd <> 0 -> (forall i, (i < n)%nat -> con i = true -> shape i = 0) ->
  mixed_phase prop pd dd vd n con ls shape stored = prop + pd * ((sumn n (fun i => ls i * shape i) + 1) / 2).
Proof.
  intros prop pd dd vd n con ls shape stored D Z. unfold mixed_phase.
  assert (E : gathered_value n con ls shape = sumn n (fun i => ls i * shape i)).
  { unfold gathered_value. apply sumn_ext. intros i I. destruct (con i) eqn:Q; [rewrite (Z i I Q); ring|reflexivity]. }
  rewrite E. destruct (Req_EM_T dd 0), (Req_EM_T vd 0); tauto.
Qed.
(** for piecewise linear shape functions (nonnegative, sum one) and nodal values in [-1,1] the property lies between those of the two fluids *)
Theorem C73_range : forall prop pd dd vd n con ls shape stored,
  dd <> 0 \/ vd <> 0 -> 0 <= pd -> (forall i, (i < n)%nat -> 0 <= shape i) -> sumn n shape = 1 -> (forall i, (i < n)%nat -> -1 <= ls i <= 1) ->
  prop <= mixed_phase prop pd dd vd n con ls shape stored <= prop + pd.
Proof.
  intros prop pd dd vd n con ls shape stored D P S PU L. 
  assert (G : -1 <= gathered_value n con ls shape <= 1).
  { unfold gathered_value. split.
    - replace (-1) with (- sumn n shape) by (rewrite PU; reflexivity). rewrite <- sumn_opp. apply sumn_le. intros i I. specialize (S i I). specialize (L i I). destruct (con i); nra.
    - replace 1 with (sumn n shape) by exact PU. apply sumn_le. intros i I. specialize (S i I). specialize (L i I). destruct (con i); nra. }
  set (x := gathered_value n con ls shape) in *. unfold mixed_phase. fold x.
  assert (K : prop <= prop + pd * ((x + 1) / 2) <= prop + pd) by nra.
  destruct (Req_EM_T dd 0), (Req_EM_T vd 0); tauto.
Qed.
(** Violated next to fluid type boundaries: the level set is read through its homogeneous constraints, so with one fluid
    everywhere (ls = 1) the property at a point whose constrained shape functions sum to a is too small by a/2 *)
Theorem C73_violation_boundary : forall prop pd dd vd n (con : nat -> bool) shape stored,
  dd <> 0 \/ vd <> 0 -> sumn n shape = 1 ->
  let a := sumn n (fun i => if con i then shape i else 0) in
  mixed_phase prop pd dd vd n con (fun _ => 1) shape stored = prop + pd * (1 - a / 2).
Proof.
  intros prop pd dd vd n con shape stored D PU a.
  assert (E : gathered_value n con (fun _ => 1) shape = 1 - a).
  { unfold gathered_value, a. transitivity (sumn n shape - sumn n (fun i => if con i then shape i else 0)); [|rewrite PU; reflexivity].
    rewrite <- sumn_minus. apply sumn_ext. intros i I. destruct (con i); ring. }
  unfold mixed_phase. rewrite E. assert (prop + pd * ((1 - a + 1) / 2) = prop + pd * (1 - a / 2)) by field.
  destruct (Req_EM_T dd 0), (Req_EM_T vd 0); tauto.
Qed.
(** front tracking: exactly one of the two values *)
Theorem C73_front_tracking : forall prop pd dd vd w stored, dd <> 0 \/ vd <> 0 ->
  front_phase prop pd dd vd w stored = if w then prop + pd else prop.
Proof.
  intros. unfold front_phase. destruct (Req_EM_T dd 0), (Req_EM_T vd 0); try tauto; destruct w; ring.
Qed.
Example C73_nonvacuous : mixed_phase 1 1 1 0 2 (fun i => Nat.eqb i 0) (fun _ => 1) (fun i => if Nat.eqb i 0 then 1 else 0) 7 = 3/2.
Proof. rewrite C73_violation_boundary; [cbn; lra|left; lra|cbn; lra]. Qed.

(** ** C74: motion of the surface mesh *)
Section Motion.
Context (dt : R) (vel : position -> nat -> R) (x : nat -> position).
Let values (cells : list (list nat)) := flat_map (fun cell => map (fun a => vel (x a)) cell) cells.
Let mstep (vals : list (nat -> R)) : (nat -> position) * nat -> nat -> (nat -> position) * nat :=
  (fun (tc : (nat -> position) * nat) a => let '(t, counter) := tc in
                          let velocity := nth counter vals (fun _ => 0) in
                          (fun b comp => if Nat.eqb b a then x a comp + dt * velocity comp else t b comp, S counter)).
Lemma inner_move vals pre cell rest t b comp :
  vals = pre ++ map (fun a => vel (x a)) cell ++ rest ->
  let r := fold_left (mstep vals)
                   cell (t, length pre) in
  snd r = (length pre + length cell)%nat /\
  fst r b comp = if existsb (Nat.eqb b) cell then x b comp + dt * vel (x b) comp else t b comp.
Proof.
  revert pre t. induction cell as [|a cell IH]; intros pre t E; [cbn; split; [lia|reflexivity]|].
  cbn [fold_left]. 
  assert (N : nth (length pre) vals (fun _ => 0) = vel (x a)).
  { rewrite E, app_nth2 by lia. rewrite Nat.sub_diag. reflexivity. }
  specialize (IH (pre ++ [vel (x a)]) (fun b comp => if Nat.eqb b a then x a comp + dt * nth (length pre) vals (fun _ => 0) comp else t b comp)).
  rewrite app_length in IH. cbn [length] in IH. replace (length pre + 1)%nat with (S (length pre)) in IH by lia.
  destruct IH as [I1 I2]. { rewrite E, <- app_assoc. reflexivity. }
  split; [etransitivity; [exact I1|cbn; lia]|]. etransitivity; [exact I2|]. cbn [existsb]. rewrite N. destruct (Nat.eqb_spec b a) as [->|NE]; cbn [orb]; [|reflexivity].
  destruct (existsb (Nat.eqb a) cell); reflexivity.
Qed.
Lemma outer_move vals cells : forall pre rest t b comp,
  vals = pre ++ values cells ++ rest ->
  let r := fold_left (fun tc cell => fold_left (mstep vals)
                   cell tc) cells (t, length pre) in
  fst r b comp = if existsb (existsb (Nat.eqb b)) cells then x b comp + dt * vel (x b) comp else t b comp.
Proof.
  induction cells as [|cell cells IH]; intros pre rest t b comp E; [reflexivity|]. cbn [fold_left].
  unfold values in E. cbn [flat_map] in E. fold (values cells) in E. rewrite <- app_assoc in E.
  set (f := mstep vals) in *.
  destruct (fold_left f cell (t, length pre)) as [t1 n1] eqn:Q.
  assert (I : forall b comp, n1 = (length pre + length cell)%nat /\ t1 b comp = if existsb (Nat.eqb b) cell then x b comp + dt * vel (x b) comp else t b comp).
  { intros b0 c0. pose proof (inner_move vals pre cell (values cells ++ rest) t b0 c0 E) as J. cbv zeta in J. fold f in J. rewrite Q in J. exact J. }
  specialize (IH (pre ++ map (fun a => vel (x a)) cell) rest t1 b comp).
  rewrite app_length, map_length in IH. destruct (I b comp) as [I1 I2]. rewrite I1. cbv zeta in IH. rewrite IH by (rewrite E, <- app_assoc; reflexivity).
  cbn [existsb]. rewrite I2. destruct (existsb (Nat.eqb b) cell), (existsb (existsb (Nat.eqb b)) cells); reflexivity.
Qed.
End Motion.
(** every node of the surface mesh moves once with the velocity at its position at the begin of the step,
    also if it belongs to several cells; other entries stay *)
Theorem C74_every_node_once : forall dt vel cells x a comp,
  update_position_vector dt vel cells x a comp =
  if existsb (existsb (Nat.eqb a)) cells then x a comp + dt * vel (x a) comp else x a comp.
Proof.
  intros. unfold update_position_vector. pose proof (outer_move dt vel x _ cells [] [] x a comp (eq_sym (app_nil_r _))) as H. cbn [length] in H. exact H.
Qed.
(** so the numbering of cells does not matter *)
Theorem C74_order_independent : forall dt vel cells cells' x a comp, Permutation cells cells' ->
  update_position_vector dt vel cells x a comp = update_position_vector dt vel cells' x a comp.
Proof.
  intros dt vel cells cells' x a comp PM. rewrite !C74_every_node_once.
  replace (existsb (existsb (Nat.eqb a)) cells') with (existsb (existsb (Nat.eqb a)) cells); [reflexivity|].
  apply eq_true_iff_eq. rewrite !existsb_exists. split; intros (c & I & E); exists c; split; auto; [now apply (Permutation_in _ PM)|apply Permutation_sym in PM; now apply (Permutation_in _ PM)].
Qed.
(** a uniform flow translates the surface *)
Theorem C74_translation : forall dt u cells x a b comp, (exists c, In c cells /\ In a c) -> (exists c, In c cells /\ In b c) ->
  let x' := update_position_vector dt (fun _ => u) cells x in
  x' a comp = x a comp + dt * u comp /\ x' a comp - x' b comp = x a comp - x b comp.
Proof.
  intros dt u cells x a b comp A B x'.
  assert (G : forall k, (exists c, In c cells /\ In k c) -> x' k comp = x k comp + dt * u comp).
  { intros k (c & C & K). unfold x'. rewrite C74_every_node_once.
    replace (existsb (existsb (Nat.eqb k)) cells) with true; [reflexivity|]. symmetry. apply existsb_exists. exists c. split; [exact C|].
    apply existsb_exists. exists k. split; [exact K|apply Nat.eqb_refl]. }
  split; [now apply G|]. rewrite (G a A), (G b B). ring.
Qed.
Example C74_nonvacuous : update_position_vector (1/2) (fun p c => p c) [[0%nat; 1%nat]; [1%nat; 2%nat]] (fun a c => INR a) 1%nat 0%nat = 3/2.
Proof. rewrite C74_every_node_once. cbn. lra. Qed.

(** ** C72: the interface and the time *)
(** the position a user expects at time t of a point that moves with velocity v *)
Definition expected_position (x0 v t0 t : R) : R := x0 + (t - t0) * v.
Definition sharp_legal v ds n s := forall m, (m < n)%nat -> at_end (tr_clock (sharp_loop v ds m s)) = false.
(** the flow clock after setup *)
Definition start_clock (p : ts_params RNum) : clock RNum := ck_ns (setup_clocks p).
Lemma sharp_clock v ds sm n x0 p : tr_clock (sharp_loop v ds n (Tracked x0 (start_clock p))) = ck_ns (two_phase_loop (N:=RNum) ds sm n (setup_clocks p)).
Proof. induction n as [|n IH]; [reflexivity|]. cbn [sharp_loop two_phase_loop]. unfold sharp_step, two_phase_step. cbn [tr_clock ck_ns]. now rewrite IH. Qed.
Theorem C72_position : forall (p : ts_params RNum) v ds n x0, sensible p -> sharp_legal v ds n (Tracked x0 (start_clock p)) ->
  let s := sharp_loop v ds n (Tracked x0 (start_clock p)) in
  (at_end (tr_clock s) = false -> tr_x s = expected_position x0 v (tp_start p) (now (tr_clock s))) /\
  (** in general: off by the difference of the step size used and the step size of the final step *)
  exists e, tr_x s = expected_position x0 v (tp_start p) (now (tr_clock s)) + e * v /\
    match n with O => e = 0 | S m => e = step_size (request_step (tr_clock (sharp_loop v ds m (Tracked x0 (start_clock p)))) (ds m)) - step_size (tr_clock s) end.
Proof.
  intros p v ds n x0 P L s.
  set (sm := fun _ : nat => false).
  assert (LR : forall k, (k <= n)%nat -> legal_run ds sm k (setup_clocks p)).
  { intros k K m M. rewrite <- (sharp_clock v ds sm m x0 p). apply L. lia. }
  assert (G : forall k, (k <= n)%nat -> let s := sharp_loop v ds k (Tracked x0 (start_clock p)) in
    (at_end (tr_clock s) = false -> tr_x s = expected_position x0 v (tp_start p) (now (tr_clock s))) /\
    exists e, tr_x s = expected_position x0 v (tp_start p) (now (tr_clock s)) + e * v /\
    match k with O => e = 0 | S m => e = step_size (request_step (tr_clock (sharp_loop v ds m (Tracked x0 (start_clock p)))) (ds m)) - step_size (tr_clock s) end).
  { induction k as [|k IH]; intros K.
    - cbn [sharp_loop tr_x tr_clock]. split.
      + intros _. unfold expected_position, start_clock, setup_clocks, now. cbn. lra.
      + exists 0. split; [|reflexivity]. unfold expected_position, start_clock, setup_clocks, now. cbn. lra.
    - destruct (IH ltac:(lia)) as [I1 _].
      assert (E : at_end (tr_clock (sharp_loop v ds k (Tracked x0 (start_clock p)))) = false) by (apply L; lia).
      specialize (I1 E).
      destruct (loop_sync p ds sm k P (LR k ltac:(lia))) as [_ SY]. cbv zeta in SY. rewrite <- (sharp_clock v ds sm k x0 p) in SY.
      destruct (SY E) as [_ ST]. cbn [sharp_loop].
      set (t := sharp_loop v ds k (Tracked x0 (start_clock p))) in *. clearbody t. unfold sharp_step. cbn [tr_x tr_clock].
      assert (NR : now (request_step (tr_clock t) (ds k)) = now (tr_clock t)) by (destruct (ds k); reflexivity).
      pose proof (next_step_diff (request_step (tr_clock t) (ds k))) as D. rewrite NR in D.
      split.
      + intro AE. destruct (request_settled (tr_clock t) (ds k) ST) as (q & Q1 & Q2 & Q3). rewrite Q1 in *.
        pose proof ST as (S1 & S2 & S3).
        pose proof (settled_next_s _ (with_settled (tr_clock t) q S2 Q2)) as Ns.
        assert (H : next_hits_end (with_step (tr_clock t) q) = false).
        { unfold at_end in AE. cbn [next at_end_val] in AE. apply orb_false_iff in AE. tauto. }
        assert (SZ : step_size (next (with_step (tr_clock t) q)) = step_size (with_step (tr_clock t) q)).
        { unfold step_size. cbn [next current_step_val]. unfold next_step. rewrite H. exact Ns. }
        rewrite SZ in D. rewrite D, I1. unfold expected_position. rnum. lra.
      + exists (step_size (request_step (tr_clock t) (ds k)) - step_size (next (request_step (tr_clock t) (ds k)))).
        split; [|reflexivity]. rewrite I1, D. unfold expected_position. rnum. lra. }
  apply G. lia.
Qed.
(** Violated in a shortened final step: the interface is moved with the step size of the step before *)
Theorem C72_violation_final_step : forall (p : ts_params RNum) v ds n x0, sensible p -> sharp_legal v ds (S n) (Tracked x0 (start_clock p)) ->
  let s := sharp_loop v ds n (Tracked x0 (start_clock p)) in
  let s' := sharp_loop v ds (S n) (Tracked x0 (start_clock p)) in
  ds n = None -> v <> 0 -> step_size (tr_clock s') < step_size (tr_clock s) ->
  tr_x s' = expected_position x0 v (tp_start p) (now (tr_clock s')) + (step_size (tr_clock s) - step_size (tr_clock s')) * v /\
  tr_x s' <> expected_position x0 v (tp_start p) (now (tr_clock s')).
Proof.
  intros p v ds n x0 P L s s' D V LT. destruct (C72_position p v ds (S n) x0 P L) as [_ (e & E1 & E2)]. fold s' s in E1, E2.
  rewrite D in E2. cbn [request_step] in E2. split; [rewrite E1, E2; reflexivity|]. rewrite E1, E2. intro Q.
  assert (H : (step_size (tr_clock s) - step_size (tr_clock s')) * v = 0) by lra. apply Rmult_integral in H as [H|H]; lra.
Qed.
(** the clock of the example: start 1, end 13/4, step 1: the final step has size 1/4 *)
Example C72_nonvacuous : sensible ex_tp /\ 
  let k n := two_phase_loop (N:=QNum) (fun _ => None) (fun _ => false) n (setup_clocks q_tp) in
  at_end (ck_ns (k 2%nat)) = false /\ step_size (ck_ns (k 2%nat)) = QArith_base.Qmake 1 1 /\ step_size (ck_ns (k 3%nat)) = (QArith_base.Qmake 1 4).
Proof. split; [unfold sensible, ex_tp; cbn; lra|]. cbv zeta. repeat split; vm_compute; reflexivity. Qed.
(** initial guess of the level set: exact for fields linear in time if the two step sizes are those of the coming and of
    the last step; the code takes them before the clock is advanced *)
Theorem C72_extrapolation : forall a b t dt dt_old, 0 < dt_old ->
  ls_extrapolate dt dt_old (a + b * t) (a + b * (t - dt_old)) = a + b * (t + dt).
Proof. intros. unfold ls_extrapolate. destruct (Rlt_dec 0 dt_old); [field; lra|lra]. Qed.
Theorem C72_extrapolation_error : forall a b t dt dt_old dt_before, 0 < dt_before ->
  ls_extrapolate dt dt_before (a + b * t) (a + b * (t - dt_old)) - (a + b * (t + dt)) = b * dt * (dt_old / dt_before - 1).
Proof. intros. unfold ls_extrapolate. destruct (Rlt_dec 0 dt_before); [field; lra|lra]. Qed.

Print Assumptions C49_grouping.
Print Assumptions C49_one_cell_per_point.
Print Assumptions C50_force_is_sum.
Print Assumptions C50_front_tracking_multiplicity.
Print Assumptions C50_front_tracking_generic.
Print Assumptions C50_violation_face.
Print Assumptions C50_linear_in_surface_tension.
Print Assumptions C50_front_tracking_total.
Print Assumptions C50_regularized_gradient.
Print Assumptions C50_assembled_linear.
Print Assumptions C50_violation_quadratic.
Print Assumptions C71_history_independent.
Print Assumptions C71_sum_of_forces.
Print Assumptions C71_total_weight.
Print Assumptions C71_total_surface_force_partial.
Print Assumptions C71_violation_hanging_node.
Print Assumptions C72_position.
Print Assumptions C72_violation_final_step.
Print Assumptions C72_extrapolation.
Print Assumptions C72_extrapolation_error.
Print Assumptions C73_interior_value.
Print Assumptions C73_range.
Print Assumptions C73_violation_boundary.
Print Assumptions C73_front_tracking.
Print Assumptions C74_every_node_once.
Print Assumptions C74_order_independent.
Print Assumptions C74_translation.
Print Assumptions C75_front_tracking.
Print Assumptions C75_mixed_constant_density_partial.
Print Assumptions C75_violation_wrong_points.
