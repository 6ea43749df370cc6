(** * Property theorems C17: output files *)
From Coq Require Import ZArith NArith QArith Reals Bool List String Ascii Decimal DecimalString DecimalN DecimalFacts FinFun Lia Lra.
From Verif Require Import Num Model_TimeStepping Model_Output.
Import ListNotations.
Open Scope string_scope.

(** ** Strings *)
Definition only_digits (s : string) : Prop :=
  forall c, In c (list_ascii_of_string s) -> In c (list_ascii_of_string "0123456789").
Lemma la_app s t : list_ascii_of_string (s ++ t) = (list_ascii_of_string s ++ list_ascii_of_string t)%list.
Proof. induction s; cbn; congruence. Qed.
Lemma la_inj s t : list_ascii_of_string s = list_ascii_of_string t -> s = t.
Proof. revert t; induction s; intros [|? t]; cbn; try discriminate; auto. intros [= -> H]. f_equal; auto. Qed.
Lemma string_of_uint_digits d : only_digits (NilEmpty.string_of_uint d).
Proof.
  induction d; cbn; intros c H; try (destruct H; fail); destruct H as [<-|H]; try (apply IHd; exact H); cbn; tauto.
Qed.
Fixpoint pad (n : nat) (d : uint) : uint := match n with O => d | S n => D0 (pad n d) end.
Lemma zeros_pad n d : zeros n ++ NilEmpty.string_of_uint d = NilEmpty.string_of_uint (pad n d).
Proof. induction n; cbn; congruence. Qed.
Lemma pad_value n d : N.of_uint (pad n d) = N.of_uint d.
Proof. induction n; cbn; auto. Qed.
(** every padded number is the decimal notation of some digits with this value *)
Lemma int_to_string_value v n : exists d, int_to_string v n = NilEmpty.string_of_uint d /\ N.of_uint d = v.
Proof.
  unfold int_to_string. destruct (_ <? _)%nat.
  - eexists. unfold to_string. rewrite zeros_pad. split; [reflexivity|]. rewrite pad_value. apply DecimalN.Unsigned.of_to.
  - exists (N.to_uint v). split; [reflexivity|]. apply DecimalN.Unsigned.of_to.
Qed.
Lemma int_to_string_inj v w n m : int_to_string v n = int_to_string w m -> v = w.
Proof.
  destruct (int_to_string_value v n) as (d & -> & <-). destruct (int_to_string_value w m) as (e & -> & <-).
  intros H. apply (f_equal NilEmpty.uint_of_string) in H. rewrite !NilEmpty.usu in H. congruence.
Qed.
Lemma int_to_string_digits v n : only_digits (int_to_string v n).
Proof. destruct (int_to_string_value v n) as (d & -> & _). apply string_of_uint_digits. Qed.
Lemma digit_neq c x : In c (list_ascii_of_string "0123456789") -> existsb (Ascii.eqb x) (list_ascii_of_string "0123456789") = false -> c <> x.
Proof.
  intros H E ->. assert (existsb (Ascii.eqb x) (list_ascii_of_string "0123456789") = true).
  { apply existsb_exists. exists x. split; auto. apply Ascii.eqb_refl. } congruence.
Qed.

(** cutting at a separator that occurs in neither head *)
Lemma cut_sep (x : ascii) (a b : list ascii) (s t : list ascii) :
  ~ In x a -> ~ In x b -> (a ++ x :: s = b ++ x :: t)%list -> a = b /\ s = t.
Proof.
  revert b; induction a as [|c a IH]; intros [|d b] Ha Hb; cbn; intros E.
  - injection E as ->; auto.
  - injection E as -> E. exfalso; apply Hb; left; auto.
  - injection E as -> E. exfalso; apply Ha; left; auto.
  - injection E as -> E. destruct (IH b) as [-> ->]; auto; intros X; [apply Ha|apply Hb]; right; auto.
Qed.

(** ** C17 *)
(** In one run (same base name, same number of processes) a file can only be written twice by events with
    the same cycle number, and a vtu file only by the same process; digits paddings may even differ. *)
Theorem C17_files_not_shared :
  forall (e1 e2 : event) (path : string) (c1 c2 : content),
    ev_name e1 = ev_name e2 -> ev_n_procs e1 = ev_n_procs e2 ->
    (ev_rank e1 < ev_n_procs e1)%N -> (ev_rank e2 < ev_n_procs e2)%N ->
    In (path, c1) (files_written e1) -> In (path, c2) (files_written e2) ->
    ev_cycle e1 = ev_cycle e2 /\ ev_rank e1 = ev_rank e2 /\ (c1 = Vtu <-> c2 = Vtu).
Proof.
  intros e1 e2 path c1 c2 Hn Hp R1 R2 H1 H2.
  assert (L : forall e, list_ascii_of_string (filename_time e) =
     (list_ascii_of_string (ev_name e) ++ "-"%char :: list_ascii_of_string (int_to_string (ev_cycle e) (ev_digits_steps e)))%list).
  { intros e. unfold filename_time. rewrite !la_app. reflexivity. }
  assert (V : forall e, list_ascii_of_string (vtu_name e) = (list_ascii_of_string (ev_name e) ++ "-"%char ::
     (list_ascii_of_string (int_to_string (ev_cycle e) (ev_digits_steps e)) ++
      (if (1 <? ev_n_procs e)%N then "-"%char :: list_ascii_of_string (int_to_string (ev_rank e) (ev_digits_procs e)) else []) ++
      "."%char :: list_ascii_of_string "vtu"))%list).
  { intros e. unfold vtu_name. destruct (1 <? ev_n_procs e)%N; rewrite !la_app, L, <- ?app_assoc; reflexivity. }
  assert (P : forall e, list_ascii_of_string (pvtu_name e) = (list_ascii_of_string (ev_name e) ++ "-"%char ::
     (list_ascii_of_string (int_to_string (ev_cycle e) (ev_digits_steps e)) ++ "."%char :: list_ascii_of_string "pvtu"))%list).
  { intros e. unfold pvtu_name. rewrite !la_app, L, <- ?app_assoc. reflexivity. }
  assert (nd : forall v n x, existsb (Ascii.eqb x) (list_ascii_of_string "0123456789") = false ->
               ~ In x (list_ascii_of_string (int_to_string v n))).
  { intros v n x E H. apply (digit_neq x x); auto. apply (int_to_string_digits v n); auto. }
  assert (Heads : forall (e e' : event) (s t : list ascii) x y,
     existsb (Ascii.eqb x) (list_ascii_of_string "0123456789") = false ->
     existsb (Ascii.eqb y) (list_ascii_of_string "0123456789") = false ->
     (list_ascii_of_string (int_to_string (ev_cycle e) (ev_digits_steps e)) ++ x :: s =
      list_ascii_of_string (int_to_string (ev_cycle e') (ev_digits_steps e')) ++ y :: t)%list ->
     x = y /\ ev_cycle e = ev_cycle e' /\ s = t).
  { intros e e' s t x y Hx Hy E.
    assert (x = y).
    { set (a := list_ascii_of_string _) in E at 1. set (b := list_ascii_of_string _) in E.
      assert (Da : forall c, In c a -> In c (list_ascii_of_string "0123456789")) by apply int_to_string_digits.
      assert (Db : forall c, In c b -> In c (list_ascii_of_string "0123456789")) by apply int_to_string_digits.
      clearbody a b. revert b Db E. induction a as [|c a IH]; intros [|d b] Db E; cbn in E.
      - congruence.
      - injection E as -> _. exfalso. apply (digit_neq d d); auto. apply Db; left; auto.
      - injection E as -> _. exfalso. apply (digit_neq y y); auto. apply Da; left; auto.
      - injection E as _ E. apply (IH ltac:(intros; apply Da; right; auto) b); auto. intros; apply Db; right; auto. }
    subst y. apply cut_sep in E as [E ->]; [|apply nd; auto|apply nd; auto].
    apply la_inj, int_to_string_inj in E. auto. }
  destruct H1 as [H1|H1]; [injection H1 as <- <-|].
  - destruct H2 as [H2|H2]; [injection H2 as H2 <-|].
    + apply (f_equal list_ascii_of_string) in H2. rewrite !V, Hn, Hp in H2.
      apply app_inv_head in H2. injection H2 as H2.
      destruct (N.ltb_spec 1 (ev_n_procs e2)); cbn in H2.
      * apply Heads in H2 as (_ & E & H2); auto. apply cut_sep in H2 as [H2 _]; [|apply nd; auto|apply nd; auto].
        apply la_inj, int_to_string_inj in H2. repeat split; auto.
      * apply Heads in H2 as (_ & E & H2); auto. repeat split; auto. lia.
    + destruct ((1 <? ev_n_procs e2)%N && (ev_rank e2 =? 0)%N) eqn:C; [|destruct H2].
      destruct H2 as [H2|[]]. injection H2 as H2 <-. exfalso.
      apply (f_equal list_ascii_of_string) in H2. rewrite V, P, Hn, Hp in H2.
      apply app_inv_head in H2. injection H2 as H2. apply andb_true_iff in C as [C _]. rewrite C in H2. cbn in H2.
      apply Heads in H2 as (E & _ & _); auto. discriminate.
  - destruct ((1 <? ev_n_procs e1)%N && (ev_rank e1 =? 0)%N) eqn:C; [|destruct H1].
    destruct H1 as [H1|[]]. injection H1 as <- <-. apply andb_true_iff in C as [C C0].
    destruct H2 as [H2|H2]; [injection H2 as H2 <-|].
    + exfalso. apply (f_equal list_ascii_of_string) in H2. rewrite V, P, <- Hn, <- Hp in H2.
      apply app_inv_head in H2. injection H2 as H2. rewrite C in H2. cbn in H2.
      apply Heads in H2 as (E & _ & _); auto. discriminate.
    + destruct ((1 <? ev_n_procs e2)%N && (ev_rank e2 =? 0)%N) eqn:C'; [|destruct H2].
      destruct H2 as [H2|[]]. injection H2 as H2 <-. apply andb_true_iff in C' as [C' C0'].
      apply (f_equal list_ascii_of_string) in H2. rewrite !P, Hn in H2.
      apply app_inv_head in H2. injection H2 as H2.
      apply Heads in H2 as (_ & E & _); auto. apply N.eqb_eq in C0, C0'. split; auto. split; [congruence|].
      split; discriminate.
Qed.
Print Assumptions C17_files_not_shared.

Lemma strip_split s : exists dir, s = dir ++ strip_directory s /\ has_slash (strip_directory s) = false /\
  (dir = "" \/ exists p, dir = p ++ "/").
Proof.
  induction s as [|c s IH]; [exists ""; auto|].
  cbn [strip_directory]. destruct (has_slash (String c s)) eqn:E.
  - destruct IH as (dir & Es & Hs & Hd). exists (String c dir). split; [cbn; congruence|]. split; auto. right.
    destruct Hd as [->|[p ->]]; [|exists (String c p); reflexivity].
    cbn [append] in Es. exists "". unfold has_slash in E. cbn [list_ascii_of_string existsb] in E.
    rewrite Es in E. unfold has_slash in Hs. rewrite Hs, orb_false_r in E.
    apply Ascii.eqb_eq in E. subst c. reflexivity.
  - exists ""; auto.
Qed.
Lemma strip_idem s : has_slash s = false -> strip_directory s = s.
Proof. destruct s; auto. cbn [strip_directory]. intros ->. reflexivity. Qed.
Lemma sapp_assoc a b c : (a ++ b) ++ c = a ++ b ++ c.
Proof. induction a; cbn; congruence. Qed.

(** The master record lists the file of every process exactly once, relative to its own directory. *)
Theorem C17_master_record :
  forall (e : event), (1 < ev_n_procs e)%N ->
    let on_rank r := MkEvent (ev_name e) (ev_cycle e) (ev_digits_steps e) (ev_digits_procs e) (ev_n_procs e) r in
    NoDup (pvtu_record e) /\ List.length (pvtu_record e) = N.to_nat (ev_n_procs e) /\
    exists dir base, pvtu_name e = dir ++ base /\ (dir = "" \/ exists p, dir = p ++ "/") /\ has_slash base = false /\
      forall r, (r < ev_n_procs e)%N ->
        exists entry, nth_error (pvtu_record e) (N.to_nat r) = Some entry /\ vtu_name (on_rank r) = dir ++ entry.
Proof.
  intros e Hp on_rank.
  assert (EB : (if has_slash (filename_time e) then strip_directory (filename_time e) else filename_time e)
               = strip_directory (filename_time e)).
  { destruct (has_slash _) eqn:E; auto. symmetry; apply strip_idem; auto. }
  unfold pvtu_record. rewrite EB. set (base := strip_directory (filename_time e)).
  split; [|split].
  - assert (I : forall i j, base ++ "-" ++ int_to_string (N.of_nat i) (ev_digits_procs e) ++ ".vtu" =
                base ++ "-" ++ int_to_string (N.of_nat j) (ev_digits_procs e) ++ ".vtu" -> i = j).
    { intros i j H. apply (f_equal list_ascii_of_string) in H. rewrite !la_app in H.
      apply app_inv_head in H. apply app_inv_head in H. cbn [list_ascii_of_string] in H.
      apply cut_sep in H as [H _].
      - apply la_inj, int_to_string_inj in H. lia.
      - intros X. apply (digit_neq "."%char "."%char); auto. apply (int_to_string_digits (N.of_nat i) (ev_digits_procs e)); auto.
      - intros X. apply (digit_neq "."%char "."%char); auto. apply (int_to_string_digits (N.of_nat j) (ev_digits_procs e)); auto. }
    apply Injective_map_NoDup; [exact I|apply seq_NoDup].
  - rewrite map_length, seq_length. reflexivity.
  - destruct (strip_split (filename_time e)) as (dir & E1 & E2 & E3). fold base in E1, E2.
    exists dir, (base ++ ".pvtu"). split; [unfold pvtu_name; rewrite E1 at 1; apply sapp_assoc|].
    split; auto. split.
    { unfold has_slash in *. rewrite la_app, existsb_app, E2. reflexivity. }
    intros r Hr. eexists. split.
    + rewrite nth_error_map, (nth_error_nth' _ 0%nat) by (rewrite seq_length; lia). cbn [option_map].
      rewrite seq_nth by lia. rewrite Nat.add_0_l, N2Nat.id. reflexivity.
    + unfold vtu_name. cbn [ev_n_procs on_rank]. rewrite (proj2 (N.ltb_lt _ _) Hp).
      change (filename_time (on_rank r)) with (filename_time e). rewrite E1. cbn [on_rank ev_rank ev_digits_procs].
      rewrite !sapp_assoc. reflexivity.
Qed.
Print Assumptions C17_master_record.
Example C17_nonvacuous :
  let e := MkEvent "out.d/run-3" 12 4 2 13 0 in
  pvtu_name e = "out.d/run-3-0012.pvtu" /\ vtu_name e = "out.d/run-3-0012-00.vtu" /\
  nth_error (pvtu_record e) 11 = Some "run-3-0012-11.vtu".
Proof. repeat split. Qed.

(** Outputs at least one output interval apart get increasing cycle numbers (exact arithmetic). *)
Theorem C17_cycle_numbers_partial :
  forall (c1 c2 : clock RNum) (frequency : R) (n1 n2 : N),
    (0 < frequency)%R -> (0 <= now c1)%R -> (now c1 + frequency <= now c2)%R ->
    cycle c1 frequency = Some n1 -> cycle c2 frequency = Some n2 -> (n1 < n2)%N.
Proof.
  intros c1 c2 f n1 n2 Hf H0 H1. unfold cycle. rnum.
  assert (A : (now c1 / f + 1 <= now c2 / f)%R).
  { replace 1%R with (f / f)%R by (field; lra). unfold Rdiv. rewrite <- Rmult_plus_distr_r.
    apply Rmult_le_compat_r; [left; apply Rinv_0_lt_compat; auto|auto]. }
  assert (B : (0 <= now c1 / f)%R).
  { apply Rmult_le_pos; auto. left; apply Rinv_0_lt_compat; auto. }
  set (x := (now c1 / f)%R) in *. set (y := (now c2 / f)%R) in *.
  assert (Q : Q2R (51#100) = (51/100)%R) by (unfold Q2R; cbn; lra). rewrite Q.
  destruct (int_range (Rtrunc (x + 51 / 100))) as [z1|] eqn:E1; [|discriminate].
  destruct (int_range (Rtrunc (y + 51 / 100))) as [z2|] eqn:E2; [|discriminate].
  apply int_range_inv in E1 as [-> _]. apply int_range_inv in E2 as [-> _].
  assert (T1 := Rtrunc_nonneg (x + 51/100) ltac:(lra)). assert (T2 := Rtrunc_nonneg (y + 51/100) ltac:(lra)).
  set (z1 := Rtrunc (x + 51/100)) in *. set (z2 := Rtrunc (y + 51/100)) in *.
  assert (z1 < z2)%Z.
  { apply lt_IZR. assert (IZR z1 < IZR z2 + 0)%R; [|lra].
    assert (z1 + 1 < z2 + 1)%Z; [|rewrite Rplus_0_r; apply IZR_lt; lia].
    apply lt_IZR. rewrite !plus_IZR. lra. }
  destruct (Z.leb_spec 0 z1); [|discriminate]. destruct (Z.leb_spec 0 z2); [|discriminate].
  intros [= <-] [= <-]. lia.
Qed.
Print Assumptions C17_cycle_numbers_partial.

(** Two output events of one run (both requested by at_tick) with the same file: the regular output at
    t = 1 and the output at the final time t = 1.2, for output frequency 0.5 and step size 0.1. *)
Definition out_clock : clock FNum :=
  ts_init (MkTP (N:=FNum) bdf_2 (Fof_Z 0) (Fof_Q (12#10)) (Fof_Q (1#10)) (Fof_Z 1) (Fof_Q (1#100))).
Definition out_event (c : clock FNum) : option event :=
  match cycle c (Fof_Q (5#10)) with
  | Some n => Some (MkEvent "run" n 2 1 1 0)
  | None => None
  end.
Definition is_tick (c : clock FNum) : bool := match at_tick c (Fof_Q (5#10)) with Some b => b | None => false end.
Theorem C17_no_overwriting_refuted :
  let c1 := next_n 10 out_clock in let c2 := next_n 12 out_clock in
  nltb (now c1) (now c2) = true /\ is_tick c1 = true /\ is_tick c2 = true /\ at_end c2 = true /\
  exists e1 e2, out_event c1 = Some e1 /\ out_event c2 = Some e2 /\ vtu_name e1 = "run-02.vtu" /\ vtu_name e2 = "run-02.vtu".
Proof.
  cbv zeta.
  split; [vm_compute; reflexivity|]. split; [vm_compute; reflexivity|]. split; [vm_compute; reflexivity|].
  split; [vm_compute; reflexivity|].
  exists (MkEvent "run" 2 2 1 1 0), (MkEvent "run" 2 2 1 1 0).
  split; [vm_compute; reflexivity|]. split; [vm_compute; reflexivity|]. split; reflexivity.
Qed.
Print Assumptions C17_no_overwriting_refuted.
