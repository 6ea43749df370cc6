(** * Index tables: C31 (linear sub-elements), C58 (component-wise velocity preconditioner) *)
From Coq Require Import List Arith Lia Bool.
From Verif Require Import Model_Indices.
Import ListNotations.

(** ** Specification *)
(** lexicographic number of the point (x, y, z) in a grid with n points per direction, x fastest *)
Definition lex (n : nat) (p : nat * nat * nat) : nat := let '(x, y, z) := p in x + n * (y + n * z).
(** the points of a dim-dimensional grid with n points per direction; unused coordinates are 0 *)
Definition in_grid (dim n : nat) (p : nat * nat * nat) : Prop :=
  let '(x, y, z) := p in
  x < n /\ (if 2 <=? dim then y < n else y = 0) /\ (if 3 <=? dim then z < n else z = 0).
Definition padd (p q : nat * nat * nat) := let '(x, y, z) := p in let '(a, b, c) := q in (x + a, y + b, z + c).
Definition pdouble (p : nat * nat * nat) := let '(x, y, z) := p in (2 * x, 2 * y, 2 * z).
Definition shape (n m : nat) (t : table) : Prop := length t = n /\ forall row, In row t -> length row = m.

(** ** Arrays and loops *)
Lemma upd_spec {A} (l : list A) i v :
  i < length l -> exists l', upd l i v = Some l' /\ length l' = length l /\ nth_error l' i = Some v /\
  forall j, j <> i -> nth_error l' j = nth_error l j.
Proof.
  revert i. induction l as [|a l IH]; intros i Hi; cbn in Hi; [lia|].
  destruct i as [|i]; cbn.
  - exists (v :: l). repeat split; try reflexivity. intros [|j] Hj; [lia|reflexivity].
  - destruct (IH i ltac:(lia)) as (l' & E & L & N & O). rewrite E. exists (a :: l'). cbn. repeat split; [lia|exact N|].
    intros [|j] Hj; [reflexivity|]. apply O. lia.
Qed.
Lemma upd_none {A} (l : list A) i v l' : upd l i v = Some l' -> i < length l.
Proof.
  revert i l'. induction l as [|a l IH]; intros i l'; cbn; [discriminate|].
  destruct i; [lia|]. destruct (upd l i v) eqn:E; [|discriminate]. apply IH in E. lia.
Qed.
Lemma upd_in {A} (l : list A) i v l' x : upd l i v = Some l' -> In x l' -> x = v \/ In x l.
Proof.
  revert i l'. induction l as [|a l IH]; intros i l'; cbn; [discriminate|].
  destruct i; [intros [= <-]; cbn; intuition congruence|].
  destruct (upd l i v) eqn:E; [|discriminate]. intros [= <-] [->|H]; [auto|]. destruct (IH _ _ E H); auto.
Qed.
Lemma upd2_spec n m t i j v :
  shape n m t -> i < n -> j < m -> exists t', upd2 t i j v = Some t' /\ shape n m t' /\ get2 t' i j = Some v /\
  forall i' j', (i', j') <> (i, j) -> get2 t' i' j' = get2 t i' j'.
Proof.
  intros [HL HR] Hi Hj. unfold upd2, get2.
  destruct (nth_error t i) as [row|] eqn:E; [|apply nth_error_None in E; lia].
  assert (Hrow : length row = m) by (apply HR; eapply nth_error_In; exact E).
  destruct (upd_spec row j v ltac:(lia)) as (row' & Er & Lr & Nr & Or). rewrite Er.
  destruct (upd_spec t i row' ltac:(lia)) as (t' & Et & Lt & Nt & Ot). exists t'. split; [exact Et|]. split; [|split].
  - split; [lia|]. intros r Hr. destruct (upd_in _ _ _ _ _ Et Hr) as [->|H]; [lia|auto].
  - rewrite Nt. exact Nr.
  - intros i' j' Hne. destruct (Nat.eq_dec i' i) as [->|Hi'].
    + rewrite Nt, E. apply Or. congruence.
    + rewrite Ot by assumption. reflexivity.
Qed.
Lemma for_from_inv {S} (P : nat -> S -> Prop) body :
  forall n k s, (forall i s, k <= i < k + n -> P i s -> exists s', body i s = Some s' /\ P (i + 1) s') ->
    P k s -> exists s', for_from n k body s = Some s' /\ P (k + n) s'.
Proof.
  induction n as [|n IH]; intros k s HB HP; cbn.
  - exists s. split; [reflexivity|]. rewrite Nat.add_0_r. exact HP.
  - destruct (HB k s ltac:(lia) HP) as (s' & E & HP'). rewrite E.
    destruct (IH (k + 1) s') as (s'' & E' & HP''); [intros; apply HB; [lia|assumption]|exact HP'|].
    exists s''. split; [exact E'|]. replace (k + Datatypes.S n) with (k + 1 + n) by lia. exact HP''.
Qed.
Lemma for_loop_inv {S} (P : nat -> S -> Prop) body n s :
  (forall i s, i < n -> P i s -> exists s', body i s = Some s' /\ P (i + 1) s') ->
  P 0 s -> exists s', for_loop n body s = Some s' /\ P n s'.
Proof. intros HB HP. apply (for_from_inv P body n 0 s); [intros; apply HB; [lia|assumption]|exact HP]. Qed.

(** ** Programs that only write values F r c *)
Section Fill.
Variables (n m : nat) (F : nat -> nat -> nat).
Definition fills (prog : table -> option table) (W : nat -> nat -> Prop) : Prop :=
  forall t, shape n m t -> exists t', prog t = Some t' /\ shape n m t' /\
    (forall r c, W r c -> get2 t' r c = Some (F r c)) /\
    (forall r c, get2 t r c = Some (F r c) -> get2 t' r c = Some (F r c)).
Lemma fills_write r c v : r < n -> c < m -> v = F r c -> fills (fun t => upd2 t r c v) (fun r' c' => (r', c') = (r, c)).
Proof.
  intros Hr Hc -> t Ht. destruct (upd2_spec n m t r c (F r c) Ht Hr Hc) as (t' & E & S' & G & O).
  exists t'. repeat split; [exact E|apply S'|apply S'| |].
  - intros r' c' [= -> ->]. exact G.
  - intros r' c' H. destruct (Nat.eq_dec r' r) as [->|]; [destruct (Nat.eq_dec c' c) as [->|]|]; [exact G| |]; rewrite O by congruence; exact H.
Qed.
Lemma fills_loop k body W : (forall i, i < k -> fills (body i) (W i)) ->
  fills (for_loop k body) (fun r c => exists i, i < k /\ W i r c).
Proof.
  intros HB t Ht.
  destruct (for_loop_inv (fun i t' => shape n m t' /\ (forall r c, (exists a, a < i /\ W a r c) -> get2 t' r c = Some (F r c)) /\
      (forall r c, get2 t r c = Some (F r c) -> get2 t' r c = Some (F r c))) body k t) as (t' & E & S' & G & O).
  - intros i t1 Hi (S1 & G1 & O1). destruct (HB i Hi t1 S1) as (t2 & E2 & S2 & G2 & O2).
    exists t2. split; [exact E2|]. split; [exact S2|]. split.
    + intros r c (a & Ha & HW). destruct (Nat.eq_dec a i) as [->|]; [apply G2; exact HW|]. apply O2, G1. exists a. split; [lia|exact HW].
    + intros r c H. apply O2, O1, H.
  - split; [exact Ht|]. split; [intros r c (a & Ha & _); lia|auto].
  - exists t'. auto.
Qed.
Lemma fills_ext prog prog' W : (forall t, prog t = prog' t) -> fills prog W -> fills prog' W.
Proof. intros H HF t Ht. rewrite <- H. apply HF, Ht. Qed.
End Fill.

Lemma shape_make n m : shape n m (make_table n m).
Proof. split; [apply repeat_length|]. intros r H. apply repeat_spec in H. subst. apply repeat_length. Qed.

(** ** Decoding lexicographic numbers *)
Definition unlex (n r : nat) : nat * nat * nat := (r mod n, (r / n) mod n, r / n / n).
Lemma unlex_lex n x y z : x < n -> y < n -> unlex n (lex n (x, y, z)) = (x, y, z).
Proof.
  intros Hx Hy. unfold unlex, lex.
  assert (E1 : (x + n * (y + n * z)) mod n = x) by (rewrite (Nat.mul_comm n (y + n * z)), Nat.mod_add, Nat.mod_small; lia).
  assert (E2 : (x + n * (y + n * z)) / n = y + n * z) by (rewrite (Nat.mul_comm n (y + n * z)), Nat.div_add, Nat.div_small; lia).
  rewrite E1, E2.
  assert (E3 : (y + n * z) mod n = y) by (rewrite (Nat.mul_comm n z), Nat.mod_add, Nat.mod_small; lia).
  assert (E4 : (y + n * z) / n = z) by (rewrite (Nat.mul_comm n z), Nat.div_add, Nat.div_small; lia).
  rewrite E3, E4. reflexivity.
Qed.
Lemma lex_unlex n r : n <> 0 -> lex n (unlex n r) = r.
Proof.
  intros Hn. unfold lex, unlex. pose proof (Nat.div_mod r n Hn). pose proof (Nat.div_mod (r / n) n Hn). nia.
Qed.
Lemma in_grid_bounds dim n p : 1 <= dim <= 3 -> in_grid dim n p -> let '(x, y, z) := p in x < n /\ y < n /\ (dim < 3 -> z = 0) /\ (dim = 3 -> z < n).
Proof.
  destruct p as [[x y] z]. intros Hd. unfold in_grid. destruct (Nat.leb_spec 2 dim), (Nat.leb_spec 3 dim); lia.
Qed.
Lemma lex_bound dim n p : 1 <= dim <= 3 -> in_grid dim n p -> lex n p < n ^ dim.
Proof.
  destruct p as [[x y] z]. intros Hd. assert (dim = 1 \/ dim = 2 \/ dim = 3) as [->|[->| ->]] by lia; cbn; intros (Hx & Hy & Hz); nia.
Qed.
Lemma in_grid_unlex dim n r : 1 <= dim <= 3 -> r < n ^ dim -> in_grid dim n (unlex n r).
Proof.
  intros Hd Hr. unfold in_grid, unlex. assert (n <> 0) by (intros ->; rewrite Nat.pow_0_l in Hr; lia).
  assert (M : forall a, a mod n < n) by (intros; apply Nat.mod_upper_bound; assumption). split; [apply M|].
  assert (dim = 1 \/ dim = 2 \/ dim = 3) as [->|[->| ->]] by lia; cbn [Nat.pow Nat.leb] in *.
  - rewrite (Nat.div_small r n) by lia. rewrite Nat.mod_small, Nat.div_small; lia.
  - split; [apply M|]. apply Nat.div_small. apply Nat.div_lt_upper_bound; lia.
  - split; [apply M|]. apply Nat.div_lt_upper_bound; [assumption|]. apply Nat.div_lt_upper_bound; lia.
Qed.

(** ** C31 *)
(** both tables have the same structure: entry [v p c] for the sub-element p and its corner c *)
Lemma table_spec (dim degree : nat) (v : nat * nat * nat -> nat * nat * nat -> nat) (prog : table -> option table) :
  1 <= dim <= 3 -> 1 <= degree ->
  (forall F, (forall p c, in_grid dim degree p -> in_grid dim 2 c -> F (lex degree p) (lex 2 c) = v p c) ->
     exists W, fills (degree ^ dim) (n_dofs dim) F prog W /\ forall p c, in_grid dim degree p -> in_grid dim 2 c -> W (lex degree p) (lex 2 c)) ->
  exists t, prog (make_table (degree ^ dim) (n_dofs dim)) = Some t /\ shape (degree ^ dim) (2 ^ dim) t /\
    forall p c, in_grid dim degree p -> in_grid dim 2 c -> get2 t (lex degree p) (lex 2 c) = Some (v p c).
Proof.
  intros Hdim Hdeg HW.
  set (F := fun r c => v (unlex degree r) (unlex 2 c)).
  assert (HF : forall p c, in_grid dim degree p -> in_grid dim 2 c -> F (lex degree p) (lex 2 c) = v p c).
  { intros p c Hp Hc. unfold F. pose proof (in_grid_bounds _ _ _ Hdim Hp). pose proof (in_grid_bounds _ _ _ Hdim Hc).
    destruct p as [[x y] z], c as [[k j] i]. rewrite !unlex_lex by lia. reflexivity. }
  destruct (HW F HF) as (W & HFil & HWc).
  destruct (HFil _ (shape_make _ _)) as (t & E & Sh & G & _).
  exists t. split; [exact E|]. split; [exact Sh|]. intros p c Hp Hc. rewrite <- HF by assumption. apply G. auto.
Qed.

(** get_indices_sub_elements: no access outside of the arrays; corner c of sub-element p is the node p + c of the element *)
Theorem C31_sub_elements :
  forall (dim degree : nat) (lexicographic : list nat),
    1 <= dim <= 3 -> 1 <= degree -> (degree + 1) ^ dim <= length lexicographic ->
    exists t, get_indices_sub_elements dim degree lexicographic = Some t /\ shape (degree ^ dim) (2 ^ dim) t /\
      forall p c, in_grid dim degree p -> in_grid dim 2 c ->
        get2 t (lex degree p) (lex 2 c) = nth_error lexicographic (lex (degree + 1) (padd p c)).
Proof.
  intros dim degree lx Hdim Hdeg Hlen.
  assert (Hpad : forall p c, in_grid dim degree p -> in_grid dim 2 c -> in_grid dim (degree + 1) (padd p c)).
  { intros [[x y] z] [[k j] i]. unfold in_grid, padd. destruct (2 <=? dim), (3 <=? dim); lia. }
  assert (HN : forall p c, in_grid dim degree p -> in_grid dim 2 c -> nth_error lx (lex (degree + 1) (padd p c)) = Some (nth (lex (degree + 1) (padd p c)) lx 0)).
  { intros p c Hp Hc. apply nth_error_nth'. pose proof (lex_bound _ _ _ Hdim (Hpad p c Hp Hc)). lia. }
  enough (exists t, get_indices_sub_elements dim degree lx = Some t /\ shape (degree ^ dim) (2 ^ dim) t /\
     forall p c, in_grid dim degree p -> in_grid dim 2 c -> get2 t (lex degree p) (lex 2 c) = Some (nth (lex (degree + 1) (padd p c)) lx 0)) as (t & E & Sh & G).
  { exists t. split; [exact E|]. split; [exact Sh|]. intros p c Hp Hc. rewrite G, HN by assumption. reflexivity. }
  assert (dim = 1 \/ dim = 2 \/ dim = 3) as [->|[->| ->]] by lia; unfold get_indices_sub_elements; cbn [Nat.eqb orb]; cbv zeta.
  - replace (make_table degree (n_dofs 1)) with (make_table (degree ^ 1) (n_dofs 1)) by (rewrite Nat.pow_1_r; reflexivity).
    refine (table_spec 1 degree (fun p c => nth (lex (degree + 1) (padd p c)) lx 0) (for_loop degree _) Hdim Hdeg _). intros F HF.
    eexists; split.
    { apply fills_loop; intros elx Hx. apply fills_loop; intros i Hi.
      assert (Hp : in_grid 1 degree (elx, 0, 0)) by (cbn; lia). assert (Hc : in_grid 1 2 (i, 0, 0)) by (cbn; lia).
      specialize (HN _ _ Hp Hc). replace (lex (degree + 1) (padd (elx, 0, 0) (i, 0, 0))) with (elx + i) in HN by (cbn; lia).
      rewrite HN. apply fills_write; [cbn; lia|cbn; lia|].
      specialize (HF _ _ Hp Hc). replace (lex degree (elx, 0, 0)) with elx in HF by (cbn; lia). replace (lex 2 (i, 0, 0)) with i in HF by (cbn; lia).
      rewrite HF. f_equal. cbn; lia. }
    intros [[x y] z] [[k j] i] (Hx & Hy & Hz) (Hk & Hj & Hi). cbn [Nat.leb] in *. subst.
    exists x. split; [lia|]. exists k. split; [lia|]. f_equal; cbn; lia.
  - refine (table_spec 2 degree (fun p c => nth (lex (degree + 1) (padd p c)) lx 0) (for_loop 1 _) Hdim Hdeg _). intros F HF.
    eexists; split.
    { apply fills_loop; intros elz Hz. apply fills_loop; intros ely Hy. apply fills_loop; intros elx Hx.
      apply fills_loop; intros i Hi. apply fills_loop; intros j Hj. apply fills_loop; intros k Hk.
      assert (Hp : in_grid 2 degree (elx, ely, elz)) by (cbn; lia). assert (Hc : in_grid 2 2 (k, j, i)) by (cbn; lia).
      specialize (HN _ _ Hp Hc). specialize (HF _ _ Hp Hc).
      replace (lex (degree + 1) (padd (elx, ely, elz) (k, j, i))) with
        (elx + ely * (degree + 1) + elz * (degree + 1) * (degree + 1) + k + j * (degree + 1) + i * (degree + 1) * (degree + 1)) in HN, HF by (cbn; lia).
      pose proof (lex_bound _ _ _ Hdim Hp) as B1. pose proof (lex_bound _ _ _ Hdim Hc) as B2.
      replace (lex degree (elx, ely, elz)) with (elx + ely * degree + elz * degree * degree) in HF, B1 by (cbn; lia).
      replace (lex 2 (k, j, i)) with (k + j * 2 + i * 4) in HF, B2 by (cbn; lia).
      rewrite HN. apply fills_write; [exact B1|exact B2|]. symmetry; exact HF. }
    intros [[x y] z] [[k j] i] (Hx & Hy & Hz) (Hk & Hj & Hi). cbn [Nat.leb] in *. subst.
    exists 0. split; [lia|]. exists y. split; [lia|]. exists x. split; [lia|]. exists 0. split; [lia|]. exists j. split; [lia|]. exists k. split; [lia|].
    f_equal; cbn; lia.
  - refine (table_spec 3 degree (fun p c => nth (lex (degree + 1) (padd p c)) lx 0) (for_loop degree _) Hdim Hdeg _). intros F HF.
    eexists; split.
    { apply fills_loop; intros elz Hz. apply fills_loop; intros ely Hy. apply fills_loop; intros elx Hx.
      apply fills_loop; intros i Hi. apply fills_loop; intros j Hj. apply fills_loop; intros k Hk.
      assert (Hp : in_grid 3 degree (elx, ely, elz)) by (cbn; lia). assert (Hc : in_grid 3 2 (k, j, i)) by (cbn; lia).
      specialize (HN _ _ Hp Hc). specialize (HF _ _ Hp Hc).
      replace (lex (degree + 1) (padd (elx, ely, elz) (k, j, i))) with
        (elx + ely * (degree + 1) + elz * (degree + 1) * (degree + 1) + k + j * (degree + 1) + i * (degree + 1) * (degree + 1)) in HN, HF by (cbn; lia).
      pose proof (lex_bound _ _ _ Hdim Hp) as B1. pose proof (lex_bound _ _ _ Hdim Hc) as B2.
      replace (lex degree (elx, ely, elz)) with (elx + ely * degree + elz * degree * degree) in HF, B1 by (cbn; lia).
      replace (lex 2 (k, j, i)) with (k + j * 2 + i * 4) in HF, B2 by (cbn; lia).
      rewrite HN. apply fills_write; [exact B1|exact B2|]. symmetry; exact HF. }
    intros [[x y] z] [[k j] i] (Hx & Hy & Hz) (Hk & Hj & Hi). cbn [Nat.leb] in *.
    exists z. split; [lia|]. exists y. split; [lia|]. exists x. split; [lia|]. exists i. split; [lia|]. exists j. split; [lia|]. exists k. split; [lia|].
    f_equal; cbn; lia.
Qed.
Print Assumptions C31_sub_elements.

(** get_indices_sub_quad: point c of sub-element p is the point 2 p + c of the iterated quadrature with 2 degree points per direction *)
Theorem C31_sub_quad :
  forall (dim degree : nat), 1 <= dim <= 3 -> 1 <= degree ->
    exists t, get_indices_sub_quad dim degree = Some t /\ shape (degree ^ dim) (2 ^ dim) t /\
      forall p c, in_grid dim degree p -> in_grid dim 2 c ->
        get2 t (lex degree p) (lex 2 c) = Some (lex (2 * degree) (padd (pdouble p) c)).
Proof.
  intros dim degree Hdim Hdeg.
  assert (dim = 1 \/ dim = 2 \/ dim = 3) as [->|[->| ->]] by lia; unfold get_indices_sub_quad; cbn [Nat.eqb orb]; cbv zeta.
  - replace (make_table degree (n_dofs 1)) with (make_table (degree ^ 1) (n_dofs 1)) by (rewrite Nat.pow_1_r; reflexivity).
    refine (table_spec 1 degree (fun p c => lex (2 * degree) (padd (pdouble p) c)) (for_loop degree _) Hdim Hdeg _). intros F HF.
    eexists; split.
    { apply fills_loop; intros elx Hx. apply fills_loop; intros i Hi.
      assert (Hp : in_grid 1 degree (elx, 0, 0)) by (cbn; lia). assert (Hc : in_grid 1 2 (i, 0, 0)) by (cbn; lia).
      apply fills_write; [cbn; lia|cbn; lia|].
      specialize (HF _ _ Hp Hc). replace (lex degree (elx, 0, 0)) with elx in HF by (cbn; lia). replace (lex 2 (i, 0, 0)) with i in HF by (cbn; lia).
      rewrite HF. cbn; lia. }
    intros [[x y] z] [[k j] i] (Hx & Hy & Hz) (Hk & Hj & Hi). cbn [Nat.leb] in *. subst.
    exists x. split; [lia|]. exists k. split; [lia|]. f_equal; cbn; lia.
  - refine (table_spec 2 degree (fun p c => lex (2 * degree) (padd (pdouble p) c)) (for_loop 1 _) Hdim Hdeg _). intros F HF.
    eexists; split.
    { apply fills_loop; intros elz Hz. apply fills_loop; intros ely Hy. apply fills_loop; intros elx Hx.
      apply fills_loop; intros i Hi. apply fills_loop; intros j Hj. apply fills_loop; intros k Hk.
      assert (Hp : in_grid 2 degree (elx, ely, elz)) by (cbn; lia). assert (Hc : in_grid 2 2 (k, j, i)) by (cbn; lia).
      specialize (HF _ _ Hp Hc).
      pose proof (lex_bound _ _ _ Hdim Hp) as B1. pose proof (lex_bound _ _ _ Hdim Hc) as B2.
      replace (lex degree (elx, ely, elz)) with (elx + ely * degree + elz * degree * degree) in HF, B1 by (cbn; lia).
      replace (lex 2 (k, j, i)) with (k + j * 2 + i * 4) in HF, B2 by (cbn; lia).
      apply fills_write; [exact B1|exact B2|]. rewrite HF. unfold lex, padd, pdouble; ring. }
    intros [[x y] z] [[k j] i] (Hx & Hy & Hz) (Hk & Hj & Hi). cbn [Nat.leb] in *. subst.
    exists 0. split; [lia|]. exists y. split; [lia|]. exists x. split; [lia|]. exists 0. split; [lia|]. exists j. split; [lia|]. exists k. split; [lia|].
    f_equal; cbn; lia.
  - refine (table_spec 3 degree (fun p c => lex (2 * degree) (padd (pdouble p) c)) (for_loop degree _) Hdim Hdeg _). intros F HF.
    eexists; split.
    { apply fills_loop; intros elz Hz. apply fills_loop; intros ely Hy. apply fills_loop; intros elx Hx.
      apply fills_loop; intros i Hi. apply fills_loop; intros j Hj. apply fills_loop; intros k Hk.
      assert (Hp : in_grid 3 degree (elx, ely, elz)) by (cbn; lia). assert (Hc : in_grid 3 2 (k, j, i)) by (cbn; lia).
      specialize (HF _ _ Hp Hc).
      pose proof (lex_bound _ _ _ Hdim Hp) as B1. pose proof (lex_bound _ _ _ Hdim Hc) as B2.
      replace (lex degree (elx, ely, elz)) with (elx + ely * degree + elz * degree * degree) in HF, B1 by (cbn; lia).
      replace (lex 2 (k, j, i)) with (k + j * 2 + i * 4) in HF, B2 by (cbn; lia).
      apply fills_write; [exact B1|exact B2|]. rewrite HF. unfold lex, padd, pdouble; ring. }
    intros [[x y] z] [[k j] i] (Hx & Hy & Hz) (Hk & Hj & Hi). cbn [Nat.leb] in *.
    exists z. split; [lia|]. exists y. split; [lia|]. exists x. split; [lia|]. exists i. split; [lia|]. exists j. split; [lia|]. exists k. split; [lia|].
    f_equal; cbn; lia.
Qed.
Print Assumptions C31_sub_quad.

Lemma get2_bounds n m t r c v : shape n m t -> get2 t r c = Some v -> r < n /\ c < m.
Proof.
  intros [HL HR]. unfold get2. destruct (nth_error t r) eqn:E; [|discriminate]. intros H.
  split; [rewrite <- HL; apply nth_error_Some; congruence|]. rewrite <- (HR _ (nth_error_In _ _ E)). apply nth_error_Some. congruence.
Qed.

(** the quadrature table is a bijection onto the points of the iterated quadrature: every point is used by exactly one sub-element *)
Theorem C31_sub_quad_bijective :
  forall (dim degree : nat) (t : table), 1 <= dim <= 3 -> 1 <= degree -> get_indices_sub_quad dim degree = Some t ->
    (forall r c q, get2 t r c = Some q -> q < (2 * degree) ^ dim) /\
    (forall q, q < (2 * degree) ^ dim -> exists r c, get2 t r c = Some q /\ forall r' c', get2 t r' c' = Some q -> r' = r /\ c' = c).
Proof.
  intros dim degree t Hdim Hdeg E. destruct (C31_sub_quad dim degree Hdim Hdeg) as (t' & E' & Sh & G). rewrite E in E'. injection E' as <-.
  assert (Hdec : forall r c q, get2 t r c = Some q -> in_grid dim degree (unlex degree r) /\ in_grid dim 2 (unlex 2 c) /\ q = lex (2 * degree) (padd (pdouble (unlex degree r)) (unlex 2 c))).
  { intros r c q H. destruct (get2_bounds _ _ _ _ _ _ Sh H) as [Hr Hc].
    pose proof (in_grid_unlex _ _ _ Hdim Hr) as Gp. pose proof (in_grid_unlex _ _ _ Hdim Hc) as Gc.
    split; [exact Gp|]. split; [exact Gc|]. specialize (G _ _ Gp Gc). rewrite !lex_unlex in G by lia. congruence. }
  split.
  - intros r c q H. destruct (Hdec _ _ _ H) as (Gp & Gc & ->). apply lex_bound; [assumption|].
    destruct (unlex degree r) as [[x y] z], (unlex 2 c) as [[k j] i]. revert Gp Gc. unfold in_grid, padd, pdouble. destruct (2 <=? dim), (3 <=? dim); lia.
  - intros q Hq. pose proof (in_grid_unlex _ _ _ Hdim Hq) as Gq. pose proof (lex_unlex (2 * degree) q ltac:(lia)) as Lq.
    destruct (unlex (2 * degree) q) as [[X Y] Z].
    assert (Div : forall a, a = 2 * (a / 2) + a mod 2 /\ a mod 2 < 2).
    { intros a. split; [apply Nat.div_mod; lia|apply Nat.mod_upper_bound; lia]. }
    set (p := (X / 2, Y / 2, Z / 2)). set (c := (X mod 2, Y mod 2, Z mod 2)).
    assert (Gp : in_grid dim degree p). { unfold p. revert Gq. unfold in_grid. pose proof (Div X); pose proof (Div Y); pose proof (Div Z). destruct (2 <=? dim), (3 <=? dim); lia. }
    assert (Gc : in_grid dim 2 c). { unfold c. revert Gq. unfold in_grid. pose proof (Div X); pose proof (Div Y); pose proof (Div Z). destruct (2 <=? dim), (3 <=? dim); lia. }
    exists (lex degree p), (lex 2 c). split.
    + rewrite G by assumption. f_equal. rewrite <- Lq. f_equal. unfold p, c, padd, pdouble. pose proof (Div X); pose proof (Div Y); pose proof (Div Z). f_equal; [f_equal|]; lia.
    + intros r' c' H'. destruct (Hdec _ _ _ H') as (Gp' & Gc' & Eq).
      rewrite <- (lex_unlex degree r') by lia. rewrite <- (lex_unlex 2 c') by lia.
      pose proof (in_grid_bounds _ _ _ Hdim Gp') as Bp. pose proof (in_grid_bounds _ _ _ Hdim Gc') as Bc. pose proof (in_grid_bounds _ _ _ Hdim Gq) as Bq.
      destruct (unlex degree r') as [[x y] z], (unlex 2 c') as [[k j] i].
      unfold padd, pdouble in Eq. rewrite Eq in Lq. apply (f_equal (unlex (2 * degree))) in Lq.
      cbv beta iota in Bp, Bc, Bq. rewrite (unlex_lex (2 * degree) X Y Z), (unlex_lex (2 * degree) (2 * x + k) (2 * y + j) (2 * z + i)) in Lq by lia. symmetry in Lq. assert (EX : 2 * x + k = X) by congruence. assert (EY : 2 * y + j = Y) by congruence. assert (EZ : 2 * z + i = Z) by congruence.
      assert (Hi : i < 2) by (revert Gc'; unfold in_grid; destruct (3 <=? dim); lia).
      unfold p, c. rewrite <- EX, <- EY, <- EZ.
      assert (D2 : forall a b, b < 2 -> (2 * a + b) / 2 = a /\ (2 * a + b) mod 2 = b).
      { intros a b Hb. rewrite Nat.add_comm, Nat.mul_comm. rewrite Nat.div_add, Nat.mod_add, Nat.div_small, Nat.mod_small by lia. lia. }
      destruct (D2 x k) as [-> ->]; [lia|]. destruct (D2 y j) as [-> ->]; [lia|]. destruct (D2 z i) as [-> ->]; [lia|]. auto.
Qed.
Print Assumptions C31_sub_quad_bijective.

(** every node of the element is a corner of a sub-element, and the table contains nothing else *)
Theorem C31_sub_elements_cover :
  forall (dim degree : nat) (lexicographic : list nat) (t : table),
    1 <= dim <= 3 -> 1 <= degree -> (degree + 1) ^ dim <= length lexicographic -> get_indices_sub_elements dim degree lexicographic = Some t ->
    forall v, (exists r c, get2 t r c = Some v) <-> In v (firstn ((degree + 1) ^ dim) lexicographic).
Proof.
  intros dim degree lx t Hdim Hdeg Hlen E v. destruct (C31_sub_elements dim degree lx Hdim Hdeg Hlen) as (t' & E' & Sh & G). rewrite E in E'. injection E' as <-.
  assert (FN : forall k n, k < n -> nth_error (firstn n lx) k = nth_error lx k).
  { clear. intros k n. revert k lx. induction n as [|n IH]; intros k lx Hk; [lia|]. destruct lx as [|a l]; [destruct k; reflexivity|]. destruct k; [reflexivity|]. cbn. apply IH. lia. }
  split.
  - intros (r & c & H). destruct (get2_bounds _ _ _ _ _ _ Sh H) as [Hr Hc].
    pose proof (in_grid_unlex _ _ _ Hdim Hr) as Gp. pose proof (in_grid_unlex _ _ _ Hdim Hc) as Gc.
    specialize (G _ _ Gp Gc). rewrite !lex_unlex, H in G by lia.
    apply (nth_error_In _ (lex (degree + 1) (padd (unlex degree r) (unlex 2 c)))). rewrite FN; [congruence|]. apply lex_bound; [assumption|].
    destruct (unlex degree r) as [[x y] z], (unlex 2 c) as [[k j] i]. revert Gp Gc. unfold in_grid, padd. destruct (2 <=? dim), (3 <=? dim); lia.
  - intros H. apply In_nth_error in H. destruct H as [q Hq].
    assert (Bq : q < (degree + 1) ^ dim). { assert (nth_error (firstn ((degree + 1) ^ dim) lx) q <> None) by congruence. apply nth_error_Some in H. rewrite firstn_length in H. lia. }
    rewrite FN in Hq by exact Bq. pose proof (in_grid_unlex _ _ _ Hdim Bq) as Gq. pose proof (lex_unlex (degree + 1) q ltac:(lia)) as Lq.
    destruct (unlex (degree + 1) q) as [[X Y] Z].
    set (lo := fun a => if a =? degree then degree - 1 else a).
    set (hi := fun a => if a =? degree then 1 else 0).
    assert (LH : forall a, a < degree + 1 -> lo a + hi a = a /\ lo a < degree /\ hi a < 2).
    { intros a Ha. unfold lo, hi. destruct (Nat.eqb_spec a degree); lia. }
    assert (LH0 : lo 0 = 0 /\ hi 0 = 0). { unfold lo, hi. destruct (Nat.eqb_spec 0 degree); lia. }
    assert (Gp : in_grid dim degree (lo X, lo Y, lo Z)).
    { revert Gq. unfold in_grid. intros (HX & HY & HZ). split; [apply LH; assumption|]. destruct (2 <=? dim), (3 <=? dim); split; try (subst; apply LH0); apply LH; lia. }
    assert (Gc : in_grid dim 2 (hi X, hi Y, hi Z)).
    { revert Gq. unfold in_grid. intros (HX & HY & HZ). split; [apply LH; assumption|]. destruct (2 <=? dim), (3 <=? dim); split; try (subst; apply LH0); apply LH; lia. }
    pose proof (in_grid_bounds _ _ _ Hdim Gq) as Bg. cbv beta iota in Bg.
    assert (HZ : Z < degree + 1). { revert Gq. unfold in_grid. destruct (3 <=? dim); lia. }
    exists (lex degree (lo X, lo Y, lo Z)), (lex 2 (hi X, hi Y, hi Z)). rewrite G by assumption. rewrite <- Hq. f_equal. rewrite <- Lq. f_equal.
    unfold padd. destruct (LH X) as [-> _]; [lia|]. destruct (LH Y) as [-> _]; [lia|]. destruct (LH Z) as [-> _]; [lia|]. reflexivity.
Qed.
Print Assumptions C31_sub_elements_cover.

Example C31_nonvacuous_quad : get_indices_sub_quad 2 2 = Some [[0;1;4;5];[2;3;6;7];[8;9;12;13];[10;11;14;15]].
Proof. reflexivity. Qed.
Example C31_nonvacuous_dofs : get_indices_sub_elements 1 2 [0;2;1] = Some [[0;2];[2;1]] /\
  get_indices_sub_elements 2 2 (seq 10 9) = Some [[10;11;13;14];[11;12;14;15];[13;14;16;17];[14;15;17;18]].
Proof. split; reflexivity. Qed.

(** ** C58: component-wise velocity preconditioner *)
Section Fill1.
Context {A : Type} (n : nat) (F : nat -> A).
Definition fills1 (prog : list A -> option (list A)) (W : nat -> Prop) : Prop :=
  forall l, length l = n -> exists l', prog l = Some l' /\ length l' = n /\
    (forall r, W r -> nth_error l' r = Some (F r)) /\ (forall r, nth_error l r = Some (F r) -> nth_error l' r = Some (F r)).
Lemma fills1_write r v : r < n -> v = F r -> fills1 (fun l => upd l r v) (fun r' => r' = r).
Proof.
  intros Hr -> l Hl. destruct (upd_spec l r (F r) ltac:(lia)) as (l' & E & L & N & O). exists l'. split; [exact E|]. split; [lia|]. split.
  - intros r' ->. exact N.
  - intros r' H. destruct (Nat.eq_dec r' r) as [->|Hn]; [exact N|]. rewrite O by assumption. exact H.
Qed.
Lemma fills1_skip : fills1 (fun l => Some l) (fun _ => False).
Proof. intros l Hl. exists l. intuition. Qed.
Lemma fills1_loop k body (W : nat -> nat -> Prop) : (forall i, i < k -> fills1 (body i) (W i)) -> fills1 (for_loop k body) (fun r => exists i, i < k /\ W i r).
Proof.
  intros HB l Hl.
  destruct (for_loop_inv (fun i l' => length l' = n /\ (forall r, (exists a, a < i /\ W a r) -> nth_error l' r = Some (F r)) /\
      (forall r, nth_error l r = Some (F r) -> nth_error l' r = Some (F r))) body k l) as (l' & E & S' & G & O).
  - intros i t1 Hi (S1 & G1 & O1). destruct (HB i Hi t1 S1) as (t2 & E2 & S2 & G2 & O2).
    exists t2. split; [exact E2|]. split; [exact S2|]. split.
    + intros r (a & Ha & HW). destruct (Nat.eq_dec a i) as [->|]; [apply G2; exact HW|]. apply O2, G1. exists a. split; [lia|exact HW].
    + intros r H. apply O2, O1, H.
  - split; [exact Hl|]. split; [intros r (a & Ha & _); lia|auto].
  - exists l'. auto.
Qed.
Lemma fills1_fold {C} (cells : list C) body (W : C -> nat -> Prop) : (forall c, In c cells -> fills1 (body c) (W c)) ->
  fills1 (fun l => fold_left (fun r c => match r with None => None | Some a => body c a end) cells (Some l)) (fun r => exists c, In c cells /\ W c r).
Proof.
  induction cells as [|c cs IH]; intros HB l Hl.
  - exists l. cbn. repeat split; [exact Hl| |auto]. intros r (c & [] & _).
  - cbn [fold_left]. destruct (HB c (or_introl eq_refl) l Hl) as (l1 & E1 & L1 & G1 & O1). rewrite E1.
    destruct (IH (fun c' H => HB c' (or_intror H)) l1 L1) as (l2 & E2 & L2 & G2 & O2). exists l2. split; [exact E2|]. split; [exact L2|]. split.
    + intros r (c' & [<-|Hc] & HW); [apply O2, G1, HW|]. apply G2. exists c'. auto.
    + intros r H. apply O2, O1, H.
Qed.
End Fill1.
Lemma mul_add_decode dim s d : d < dim -> (s * dim + d) / dim = s /\ (s * dim + d) mod dim = d.
Proof. intros H. rewrite Nat.add_comm, Nat.div_add, Nat.mod_add, Nat.div_small, Nat.mod_small by lia. lia. Qed.

(** scalar_dof_indices[s * dim + d] is the vector dof of component d at the support point of the scalar dof s, whatever the two
    dof numberings are, provided the numberings agree between cells ([vec]) and every owned scalar dof lies on an owned cell *)
Theorem C58_scalar_dof_indices :
  forall (dim n_owned : nat) (comp_to_sys : nat -> nat -> nat) (cells : list cell_dofs) (vec : nat -> nat -> nat),
    (forall c i s d, In c cells -> nth_error (scalar_dofs c) i = Some (Some s) -> d < dim ->
       s < n_owned /\ nth_error (vector_dofs c) (comp_to_sys d i) = Some (vec s d)) ->
    (forall s, s < n_owned -> exists c i, In c cells /\ nth_error (scalar_dofs c) i = Some (Some s)) ->
    exists l, scalar_dof_indices dim n_owned comp_to_sys cells = Some l /\ length l = dim * n_owned /\
      forall s d, s < n_owned -> d < dim -> nth_error l (s * dim + d) = Some (vec s d).
Proof.
  intros dim n cts cells vec HC HV.
  set (F := fun r => vec (r / dim) (r mod dim)).
  destruct (fills1_fold (dim * n) F cells
     (fun c a => for_loop (length (scalar_dofs c)) (fun i a => match nth_error (scalar_dofs c) i with
        | Some (Some s) => for_loop dim (fun d a => match nth_error (vector_dofs c) (cts d i) with Some g => upd a (s * dim + d) g | None => None end) a
        | Some None => Some a | None => None end) a)
     (fun c r => exists i, i < length (scalar_dofs c) /\ exists s, nth_error (scalar_dofs c) i = Some (Some s) /\ exists d, d < dim /\ r = s * dim + d)) with (l := repeat 0 (dim * n)) as (l & E & L & G & _).
  - intros c Hc. apply fills1_loop. intros i Hi. destruct (nth_error (scalar_dofs c) i) as [[s|]|] eqn:Es.
    + assert (FL : fills1 (dim * n) F (for_loop dim (fun d a => match nth_error (vector_dofs c) (cts d i) with Some g => upd a (s * dim + d) g | None => None end)) (fun r => exists d, d < dim /\ r = s * dim + d)).
      { apply fills1_loop. intros d Hd. destruct (HC c i s d Hc Es Hd) as [Hs Hv]. rewrite Hv. apply fills1_write; [nia|].
        unfold F. destruct (mul_add_decode dim s d Hd) as [-> ->]. reflexivity. }
      intros a Ha. destruct (FL a Ha) as (a' & E1 & L1 & G1 & O1). exists a'. split; [exact E1|]. split; [exact L1|]. split; [|exact O1].
      intros r (s' & [= <-] & Hd). apply G1. exact Hd.
    + intros a Ha. exists a. repeat split; [exact Ha| |auto]. intros r (s' & H & _). discriminate.
    + apply nth_error_None in Es. lia.
  - apply repeat_length.
  - exists l. split; [exact E|]. split; [exact L|]. intros s d Hs Hd. destruct (HV s Hs) as (c & i & Hc & Hi).
    rewrite G.
    + unfold F. destruct (mul_add_decode dim s d Hd) as [-> ->]. reflexivity.
    + exists c. split; [exact Hc|]. exists i. split; [apply nth_error_Some; congruence|]. exists s. split; [exact Hi|]. exists d. auto.
Qed.
Print Assumptions C58_scalar_dof_indices.

(** ComponentILUExtension::multiply: component d of the result is the scalar preconditioner applied to component d of the source,
    where component d of a vector v lists v[index[i * dim + d]]; nothing of the old destination remains *)
Definition component {V} (dim n : nat) (index : list nat) (d : nat) (v : list V) : list (option V) :=
  map (fun i => match nth_error index (i * dim + d) with Some k => nth_error v k | None => None end) (seq 0 n).
Lemma sequence_map {A B} (f : A -> option B) (g : A -> B) l : (forall a, In a l -> f a = Some (g a)) -> sequence (map f l) = Some (map g l).
Proof. induction l as [|a l IH]; intros H; cbn; [reflexivity|]. rewrite H by (left; reflexivity). rewrite IH; [reflexivity|]. intros; apply H; right; assumption. Qed.
Lemma sequence_some {A} (l : list (option A)) r : sequence l = Some r -> l = map Some r.
Proof.
  revert r. induction l as [|[a|] l IH]; intros r; cbn; [intros [= <-]; reflexivity| |discriminate].
  destruct (sequence l) eqn:E; [|discriminate]. intros [= <-]. cbn. f_equal. apply IH. reflexivity.
Qed.
Lemma sequence_exists {A} (l : list (option A)) : (forall x, In x l -> x <> None) -> exists r, sequence l = Some r.
Proof.
  induction l as [|x l IH]; intros H; cbn; [eauto|]. destruct x as [a|]; [|destruct (H None); [left|]; reflexivity].
  destruct IH as [r ->]; [intros; apply H; right; assumption|]. eauto.
Qed.
Lemma nth_error_map_seq {B} (f : nat -> B) n k : k < n -> nth_error (map f (seq 0 n)) k = Some (f k).
Proof.
  intros Hk. rewrite nth_error_map. rewrite (nth_error_nth' (seq 0 n) 0) by (rewrite seq_length; exact Hk). rewrite seq_nth by exact Hk. reflexivity.
Qed.

Theorem C58_component_preconditioner :
  forall {V : Type} (dim n : nat) (index : list nat) (prec : list V -> list V) (dst src : list V),
    1 <= dim -> length index = n * dim -> NoDup index -> (forall k, In k index -> k < n * dim) ->
    length src = n * dim -> length dst = n * dim -> (forall v, length v = n -> length (prec v) = n) ->
    exists res, multiply dim index prec dst src = Some res /\ length res = n * dim /\
      forall d, d < dim -> exists x, component dim n index d src = map Some x /\ component dim n index d res = map Some (prec x).
Proof.
  intros V dim n index prec dst src Hdim HL HND HB Hsrc Hdst Hprec.
  assert (LS : local_size dim index = n) by (unfold local_size; rewrite HL; apply Nat.div_mul; lia).
  assert (Hpos : forall i d, i < n -> d < dim -> i * dim + d < n * dim) by (intros; nia).
  assert (HI : forall i d, i < n -> d < dim -> exists k, nth_error index (i * dim + d) = Some k /\ k < n * dim).
  { intros i d Hi Hd. destruct (nth_error index (i * dim + d)) as [k|] eqn:E; [|apply nth_error_None in E; specialize (Hpos i d Hi Hd); lia].
    exists k. split; [reflexivity|]. apply HB. eapply nth_error_In; exact E. }
  assert (HC : forall d, d < dim -> exists x, src_copy dim index src d = Some x /\ length x = n).
  { intros d Hd. unfold src_copy. rewrite LS. destruct (sequence_exists (map (fun i => gather_one dim index src i d) (seq 0 n))) as [x Ex].
    - intros o Ho. apply in_map_iff in Ho. destruct Ho as (i & <- & Hi). apply in_seq in Hi. unfold gather_one.
      destruct (HI i d ltac:(lia) Hd) as (k & -> & Hk). apply nth_error_Some. lia.
    - exists x. split; [exact Ex|]. apply sequence_some in Ex. apply (f_equal (@length _)) in Ex. rewrite !map_length, seq_length in Ex. auto. }
  destruct (sequence_exists (map (src_copy dim index src) (seq 0 dim))) as [X EX].
  { intros o Ho. apply in_map_iff in Ho. destruct Ho as (d & <- & Hd). apply in_seq in Hd. destruct (HC d ltac:(lia)) as (x & -> & _). discriminate. }
  unfold multiply. rewrite EX. cbv zeta. pose proof (sequence_some _ _ EX) as EX'.
  assert (HX : forall d, d < dim -> exists x, nth_error X d = Some x /\ src_copy dim index src d = Some x /\ length x = n).
  { intros d Hd. destruct (HC d Hd) as (x & Ex & Lx). exists x. split; [|auto].
    assert (nth_error (map (src_copy dim index src) (seq 0 dim)) d = nth_error (map Some X) d) by congruence.
    rewrite nth_error_map_seq in H by exact Hd. rewrite nth_error_map in H. destruct (nth_error X d); cbn in H; congruence. }
  (* the position of k in index *)
  destruct dst as [|v0 dst'] eqn:Edst.
  { cbn in Hdst. assert (E0 : n = 0) by nia. rewrite E0 in *. rewrite LS. exists []. cbn. split; [reflexivity|]. split; [reflexivity|].
    intros d Hd. destruct (HX d Hd) as (x & _ & _ & Lx). exists x. destruct x; [|discriminate]. split; [reflexivity|].
    specialize (Hprec [] eq_refl). destruct (prec []); [reflexivity|discriminate]. }
  rewrite <- Edst in *. clear Edst dst'.
  set (pos := fun k => match find (fun p => Nat.eqb (nth p index 0) k) (seq 0 (n * dim)) with Some p => p | None => 0 end).
  assert (Hpos2 : forall p k, nth_error index p = Some k -> pos k = p).
  { intros p k H. unfold pos. assert (Hp : p < n * dim) by (rewrite <- HL; apply nth_error_Some; congruence).
    destruct (find (fun p => Nat.eqb (nth p index 0) k) (seq 0 (n * dim))) as [p'|] eqn:Ef.
    - apply find_some in Ef. destruct Ef as [Hin He]. apply in_seq in Hin. apply Nat.eqb_eq in He.
      rewrite NoDup_nth_error in HND. apply HND; [lia|]. rewrite H. rewrite (nth_error_nth' index 0) by lia. congruence.
    - pose proof (find_none _ _ Ef p ltac:(apply in_seq; lia)) as Hf. cbv beta in Hf. apply Nat.eqb_neq in Hf. rewrite (nth_error_nth _ _ 0 H) in Hf. congruence. }
  set (F := fun k => nth (pos k / dim) (nth (pos k mod dim) (map prec X) []) v0).
  destruct (fills1_loop (n * dim) F n
    (fun i => for_loop dim (fun d a => match nth_error index (i * dim + d), nth_error (map prec X) d with
        | Some k, Some col => match nth_error col i with Some v => upd a k v | None => None end | _, _ => None end))
    (fun i r => exists d, d < dim /\ nth_error index (i * dim + d) = Some r)) with (l := dst) as (res & E & L & G & _).
  - intros i Hi. apply fills1_loop with (W := fun d r => nth_error index (i * dim + d) = Some r). intros d Hd.
    destruct (HI i d Hi Hd) as (k & Ek & Hk). destruct (HX d Hd) as (x & Ex & _ & Lx). rewrite Ek, nth_error_map, Ex. cbn [option_map].
    assert (Lp : length (prec x) = n) by auto. rewrite (nth_error_nth' (prec x) v0) by lia.
    intros a Ha. destruct (fills1_write (n * dim) F k (nth i (prec x) v0) Hk) with (l := a) as (a' & E1 & L1 & G1 & O1); [|exact Ha|].
    + unfold F. rewrite (Hpos2 _ _ Ek). destruct (mul_add_decode dim i d Hd) as [-> ->]. f_equal. symmetry. apply nth_error_nth. rewrite nth_error_map, Ex. reflexivity.
    + exists a'. split; [exact E1|]. split; [exact L1|]. split; [|exact O1]. intros r [= <-]. apply G1. reflexivity.
  - exact Hdst.
  - rewrite LS. exists res. split; [exact E|]. split; [exact L|]. intros d Hd. destruct (HX d Hd) as (x & Ex & Es & Lx). exists x. split.
    + unfold src_copy in Es. apply sequence_some in Es. rewrite LS in Es. exact Es.
    + assert (Lp : length (prec x) = n) by auto.
      transitivity (map (fun i => nth_error (prec x) i) (seq 0 n)).
      * apply map_ext_in. intros i Hi. apply in_seq in Hi. destruct (HI i d ltac:(lia) Hd) as (k & Ek & Hk). rewrite Ek.
        rewrite G by (exists i; split; [lia|]; exists d; auto). unfold F. rewrite (Hpos2 _ _ Ek). destruct (mul_add_decode dim i d Hd) as [-> ->].
        rewrite (nth_error_nth (map prec X) d [] (x := prec x)) by (rewrite nth_error_map, Ex; reflexivity). symmetry. apply nth_error_nth'. lia.
      * rewrite <- Lp. generalize (prec x). clear. intros l.
        induction l as [|a l IH]; [reflexivity|]. cbn [length seq map]. cbn [nth_error]. f_equal. rewrite <- seq_shift, map_map. exact IH.
Qed.
Print Assumptions C58_component_preconditioner.

(** set_local_ordering_u inverts system_to_component_index *)
Theorem C58_local_ordering :
  forall (dim per : nat) (sys : list (nat * nat)),
    NoDup sys -> (forall c b, In (c, b) sys -> c < dim /\ b < per) ->
    exists t, set_local_ordering_u dim per sys = Some t /\ shape dim per t /\
      forall i c b, nth_error sys i = Some (c, b) -> get2 t c b = Some i.
Proof.
  intros dim per sys HND HR.
  set (F := fun c b => match find (fun p => match nth_error sys p with Some (c', b') => (c' =? c) && (b' =? b) | None => false end) (seq 0 (length sys)) with Some p => p | None => 0 end).
  assert (HF : forall i c b, nth_error sys i = Some (c, b) -> F c b = i).
  { intros i c b H. unfold F. assert (Hi : i < length sys) by (apply nth_error_Some; congruence).
    destruct (find _ _) as [p|] eqn:Ef.
    - apply find_some in Ef. destruct Ef as [Hin He]. apply in_seq in Hin. destruct (nth_error sys p) as [[c' b']|] eqn:Ep; [|discriminate].
      apply andb_prop in He. destruct He as [E1 E2]. apply Nat.eqb_eq in E1, E2. subst. rewrite NoDup_nth_error in HND. apply HND; [lia|congruence].
    - pose proof (find_none _ _ Ef i ltac:(apply in_seq; lia)) as Hf. cbv beta in Hf. rewrite H, !Nat.eqb_refl in Hf. discriminate. }
  destruct (fills_loop dim per F (length sys) (fun i t => match nth_error sys i with Some (c, b) => upd2 t c b i | None => None end)
     (fun i c b => nth_error sys i = Some (c, b))) with (t := make_table dim per) as (t & E & Sh & G & _).
  - intros i Hi. destruct (nth_error sys i) as [[c b]|] eqn:Ei; [|apply nth_error_None in Ei; lia].
    destruct (HR c b (nth_error_In _ _ Ei)) as [Hc Hb]. intros t Ht.
    destruct (fills_write dim per F c b i Hc Hb (eq_sym (HF _ _ _ Ei)) t Ht) as (t' & E1 & S1 & G1 & O1).
    exists t'. split; [exact E1|]. split; [exact S1|]. split; [|exact O1]. intros r c' [= <- <-]. apply G1. reflexivity.
  - apply shape_make.
  - exists t. split; [exact E|]. split; [exact Sh|]. intros i c b H. rewrite G; [f_equal; apply HF, H|]. exists i. split; [apply nth_error_Some; congruence|exact H].
Qed.
Print Assumptions C58_local_ordering.

Example C58_nonvacuous_ordering : set_local_ordering_u 2 2 [(0,0);(1,0);(0,1);(1,1)] = Some [[0;2];[1;3]].
Proof. reflexivity. Qed.
Example C58_nonvacuous_multiply :
  multiply 2 [0;2;1;3] (fun v => map (fun x => x * 10) v) [0;0;0;0] [1;2;3;4] = Some [10;20;30;40] /\
  multiply 2 [0;2;1;3] (@rev nat) [0;0;0;0] [1;2;3;4] = Some [2;1;4;3].
Proof. split; reflexivity. Qed.
Example C58_nonvacuous_scalar :
  scalar_dof_indices 2 3 (fun d i => 2 * i + d)
    [MkCell [Some 0; Some 2] [4;5;0;1]; MkCell [Some 2; Some 1] [0;1;2;3]] = Some [4;5;2;3;0;1].
Proof. reflexivity. Qed.
