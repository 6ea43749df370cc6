(** * Property theorems C101: collecting points on the first process *)
From Coq Require Import List Arith Bool Lia Relations Wf_nat.
From Verif Require Import Model_Gather.
Import ListNotations.

(** ** Messages *)
Lemma fold_store_other {V} (w : list (nat * V)) : forall a k, ~ In k (map fst w) -> fold_left store w a k = a k.
Proof.
  induction w as [|[j v] w IH]; intros a k H; [reflexivity|]. cbn [fold_left]. rewrite IH by (intros X; apply H; right; exact X).
  unfold store. cbn. destruct (Nat.eqb_spec k j); [|reflexivity]. exfalso. apply H. left. auto.
Qed.
Lemma fold_store_same {V} (w : list (nat * V)) x k : (forall v, In (k, v) w -> v = x) -> In k (map fst w) ->
  forall a, fold_left store w a k = x.
Proof.
  induction w as [|[j v] w IH]; intros H Hk a; [destruct Hk|]. cbn [fold_left].
  destruct (in_dec Nat.eq_dec k (map fst w)) as [Hi|Hn].
  - apply IH; [|exact Hi]. intros u Hu. apply H. right. exact Hu.
  - rewrite fold_store_other by exact Hn. destruct Hk as [E|E]; [|contradiction]. cbn in E. subst j.
    unfold store. cbn. rewrite Nat.eqb_refl. apply H. left. reflexivity.
Qed.
Lemma filled_length {V} (z : V) n w : length (filled z n w) = n.
Proof. unfold filled. rewrite map_length, seq_length. reflexivity. Qed.
Lemma filled_nth {V} (z : V) n w k x : k < n -> (forall v, In (k, v) w -> v = x) -> (exists v, In (k, v) w) ->
  nth k (filled z n w) z = x.
Proof.
  intros Hk H [v Hv]. unfold filled. erewrite nth_indep by (rewrite map_length, seq_length; exact Hk).
  rewrite (map_nth (fold_left store w (fun _ => z)) (seq 0 n) 0 k), seq_nth by exact Hk. cbn [plus].
  apply fold_store_same; [exact H|]. change k with (fst (k, v)). apply in_map. exact Hv.
Qed.
Lemma index_inj w j d j' d' : d < w -> d' < w -> j * w + d = j' * w + d' -> j = j' /\ d = d'.
Proof. intros H H' E. assert (j = j') by nia. subst. split; [reflexivity|lia]. Qed.
Lemma index_lt w j d n : d < w -> j < n -> j * w + d < w * n.
Proof. intros H1 H2. assert (S j * w <= n * w) by (apply Nat.mul_le_mono_r; lia). cbn in *. lia. Qed.
Lemma list_by_nth {B} (d : B) (l : list B) : map (fun i => nth i l d) (seq 0 (length l)) = l.
Proof.
  apply nth_ext with d d; [rewrite map_length, seq_length; reflexivity|]. intros i Hi.
  rewrite map_length, seq_length in Hi. erewrite nth_indep by (rewrite map_length, seq_length; exact Hi).
  rewrite (map_nth (fun i => nth i l d) (seq 0 (length l)) 0 i), seq_nth by exact Hi. reflexivity.
Qed.

(** what is unpacked from a message is what was packed, for any number of points and any dimension *)
Theorem C101_line_messages : forall (V : Type) (zero : V) dim (points : list line_point),
  (forall p, In p points -> length (fst p) = dim) ->
  length (line_send zero dim points) = line_width dim * length points /\
  line_receive zero dim (length points) (line_send zero dim points) = points.
Proof.
  intros V zero dim points H. split; [apply filled_length|].
  unfold line_receive. etransitivity; [|apply (list_by_nth ([], zero))].
  apply map_ext_in. intros j Hj. apply in_seq in Hj. destruct Hj as [_ Hj]. cbn in Hj.
  set (p := nth j points ([], zero)). assert (Hp : In p points) by (apply nth_In; exact Hj).
  transitivity (fst p, snd p); [|symmetry; apply (surjective_pairing p)]. f_equal.
  - etransitivity; [|apply (list_by_nth zero)]. rewrite (H p Hp). apply map_ext_in. intros d Hd. apply in_seq in Hd.
    apply filled_nth; [apply index_lt; [lia|exact Hj]| |].
    + intros v Hv. apply in_flat_map in Hv as (j' & Hj' & Hv). apply in_app_or in Hv as [Hv|[Hv|[]]].
      * apply in_map_iff in Hv as (d' & E & Hd'). apply in_seq in Hd'. injection E as E1 E2.
        apply index_inj in E1; [|lia|lia]. destruct E1 as [-> ->]. symmetry. exact E2.
      * injection Hv as E1 E2. apply index_inj in E1; lia.
    + exists (nth d (fst p) zero). apply in_flat_map. exists j. split; [apply in_seq; split; [apply Nat.le_0_l|exact Hj]|]. apply in_or_app. left.
      apply in_map_iff. exists d. split; [reflexivity|]. apply in_seq. lia.
  - apply filled_nth; [apply index_lt; [lia|exact Hj]| |].
    + intros v Hv. apply in_flat_map in Hv as (j' & Hj' & Hv). apply in_app_or in Hv as [Hv|[Hv|[]]].
      * apply in_map_iff in Hv as (d' & E & Hd'). apply in_seq in Hd'. injection E as E1 E2. apply index_inj in E1; lia.
      * injection Hv as E1 E2. apply index_inj in E1; [|lia|lia]. destruct E1 as [-> _]. symmetry. exact E2.
    + exists (snd p). apply in_flat_map. exists j. split; [apply in_seq; split; [apply Nat.le_0_l|exact Hj]|]. apply in_or_app. right. left. reflexivity.
Qed.
Print Assumptions C101_line_messages.

Theorem C101_surface_messages : forall (V : Type) (zero : V) dim (points : list surface_point),
  (forall p, In p points -> length p = 2 /\ forall r, In r p -> length r = dim) ->
  length (surface_send zero dim points) = surface_width dim * length points /\
  surface_receive zero dim (length points) (surface_send zero dim points) = points.
Proof.
  intros V zero dim points H. split; [apply filled_length|].
  unfold surface_receive. etransitivity; [|apply (list_by_nth [])].
  apply map_ext_in. intros j Hj. apply in_seq in Hj. destruct Hj as [_ Hj]. cbn in Hj.
  set (p := nth j points []). assert (Hp : In p points) by (apply nth_In; exact Hj). destruct (H p Hp) as [L2 Ld].
  transitivity (map (fun i => nth i p []) (seq 0 2)); [|rewrite <- L2; apply (list_by_nth [])]. apply map_ext_in. intros d Hd. apply in_seq in Hd.
  assert (Hr : In (nth d p []) p) by (apply nth_In; lia).
  transitivity (map (fun i => nth i (nth d p []) zero) (seq 0 dim)); [|rewrite <- (Ld _ Hr) at 1; apply (list_by_nth zero)]. apply map_ext_in. intros e He. apply in_seq in He.
  apply filled_nth; [replace (j * 2 * dim + d * dim + e) with ((j * 2 + d) * dim + e) by ring; replace (2 * dim * length points) with (dim * (2 * length points)) by ring; apply index_lt; [lia|]; change (j < length points) in Hj; lia| |].
  - intros v Hv. apply in_flat_map in Hv as (j' & Hj' & Hv). apply in_flat_map in Hv as (d' & Hd' & Hv).
    apply in_map_iff in Hv as (e' & E & He'). apply in_seq in He'. apply in_seq in Hd'. injection E as E1 E2.
    replace (j' * 2 * dim + d' * dim + e') with ((j' * 2 + d') * dim + e') in E1 by ring.
    replace (j * 2 * dim + d * dim + e) with ((j * 2 + d) * dim + e) in E1 by ring.
    apply index_inj in E1; [|lia|lia]. destruct E1 as [E1 ->]. apply index_inj in E1; [|lia|lia]. destruct E1 as [-> ->].
    symmetry. exact E2.
  - exists (nth e (nth d p []) zero). apply in_flat_map. exists j. split; [apply in_seq; split; [apply Nat.le_0_l|exact Hj]|]. apply in_flat_map. exists d.
    split; [apply in_seq; lia|]. apply in_map_iff. exists e. split; [reflexivity|]. apply in_seq. lia.
Qed.
Print Assumptions C101_surface_messages.

(** ** All schedules *)
Section Schedules.
Context {A V : Type}.
Variable width : nat.
Variable encode : list A -> list V.
Variable decode : nat -> list V -> list A.
Variable drop eager : bool.
Variable n : nat.
Variable points : nat -> list (list A).
Hypothesis Hn : 1 <= n.
Notation R := (length (points 0)).
Hypothesis rounds : forall r, r < n -> length (points r) = R.
Hypothesis packs : forall r l, r < n -> In l (points r) -> length (encode l) = width * length l /\ decode (length l) (encode l) = l.
Notation stp := (step width encode decode drop eager n points).
Notation reach := (reachable width encode decode drop eager n points).

(** the specification: in every round the points of all processes, ordered by process *)
Definition all_points (m : nat) : list A := flat_map (fun r => nth m (points r) []) (seq 0 n).
Definition up_to (m i : nat) : list A := flat_map (fun r => nth m (points r) []) (seq 0 i).

Definition mm (s : system A V) (r : nat) : nat := m_round s + match m_next s with Some i => if Nat.ltb r i then 1 else 0 | None => 0 end.
Definition mc (s : system A V) : nat := m_round s + match m_next s with Some _ => 1 | None => 0 end.
Definition ungiven (s : system A V) (r : nat) : list (list A) :=
  match o_place s r with BeforeGather => o_todo s r | _ => tl (o_todo s r) end.
Definition dropped (l : list A) : list A := if drop then [] else l.

Record inv (s : system A V) : Prop := {
  i_round : m_round s <= R;
  i_next : forall i, m_next s = Some i -> 1 <= i < n /\ m_round s < R /\ m_points s = up_to (m_round s) i /\
             forall r, 1 <= r < n -> m_count s r = length (nth (m_round s) (points r) []);
  i_results : m_results s = map all_points (seq 0 (m_round s));
  i_count : forall r, 1 <= r < n -> q_count s r ++ map (@length A) (ungiven s r) = map (@length A) (skipn (mc s) (points r));
  i_data : forall r, 1 <= r < n -> q_data s r ++ map encode (o_todo s r) = map encode (skipn (mm s r) (points r));
  i_todo : forall r, 1 <= r < n -> exists k, k <= R /\ o_todo s r = skipn k (points r) /\ o_left s r = map dropped (firstn k (points r));
  i_place : forall r, 1 <= r < n -> o_place s r <> BeforeGather -> o_todo s r <> [] }.

Lemma skipn_cons {B} k (l : list B) x rest d : skipn k l = x :: rest ->
  nth k l d = x /\ skipn (S k) l = rest /\ firstn (S k) l = firstn k l ++ [x] /\ k < length l /\ In x l.
Proof.
  revert l; induction k as [|k IH]; intros [|y l]; cbn; try discriminate.
  - intros [= -> ->]. split; [reflexivity|]. split; [reflexivity|]. split; [reflexivity|]. split; [lia|left; reflexivity].
  - intros H. destruct (IH l H) as (A1 & A2 & A3 & A4 & A5).
    split; [exact A1|]. split; [exact A2|]. split; [f_equal; exact A3|]. split; [lia|right; exact A5].
Qed.
Lemma skipn_step {B} k (l : list B) d : k < length l -> skipn k l = nth k l d :: skipn (S k) l.
Proof.
  revert l; induction k as [|k IH]; intros [|y l]; cbn; try lia; [auto|]. intros H. apply IH. lia.
Qed.
Lemma upd_same {B} (f : nat -> B) r x : upd f r x r = x.
Proof. unfold upd. rewrite Nat.eqb_refl. reflexivity. Qed.
Lemma upd_other {B} (f : nat -> B) r x k : k <> r -> upd f r x k = f k.
Proof. intros H. unfold upd. destruct (Nat.eqb_spec k r); [contradiction|reflexivity]. Qed.
Ltac by_rank r0 r := destruct (Nat.eq_dec r0 r) as [->|?NE]; [rewrite ?upd_same|rewrite ?upd_other by assumption].

Lemma inv_initial : inv (initial points).
Proof.
  constructor; cbn; try (intros; discriminate); try lia; auto.
  - intros r Hr. exists 0. cbn. split; [lia|]. split; reflexivity.
Qed.

(** the effect of finishing an iteration of the root *)
Lemma up_to_S m i : up_to m (S i) = up_to m i ++ nth m (points i) [].
Proof. unfold up_to. rewrite seq_S, flat_map_app. cbn. rewrite app_nil_r. reflexivity. Qed.

Definition root_ok (s : system A V) (next : nat) (count : nat -> nat) (acc : list A) : Prop :=
  1 <= next <= n /\ m_round s < R /\ acc = up_to (m_round s) next /\
  forall r, 1 <= r < n -> count r = length (nth (m_round s) (points r) []).

Lemma advance_inv s next count acc pl td lf qc qd :
  inv s -> root_ok s next count acc ->
  (forall r, 1 <= r < n -> qc r ++ map (@length A) (match pl r with BeforeGather => td r | _ => tl (td r) end) = map (@length A) (skipn (S (m_round s)) (points r))) ->
  (forall r, 1 <= r < n -> qd r ++ map encode (td r) = map encode (skipn (m_round s + if Nat.ltb r next then 1 else 0) (points r))) ->
  (forall r, 1 <= r < n -> exists k, k <= R /\ td r = skipn k (points r) /\ lf r = map dropped (firstn k (points r))) ->
  (forall r, 1 <= r < n -> pl r <> BeforeGather -> td r <> []) ->
  inv (advance n s next count acc pl td lf qc qd).
Proof.
  intros I (Hx & Hr & Ha & Hcn) Hqc Hqd Htd Hpl. unfold advance. destruct (Nat.ltb_spec next n) as [L|L].
  - constructor; cbn [m_round m_next m_count m_points m_results o_place o_todo o_left q_count q_data]; try assumption.
    + lia.
    + intros i [= <-]. split; [lia|]. split; [exact Hr|]. split; [exact Ha|exact Hcn].
    + exact (i_results _ I).
    + intros r Hr'. unfold ungiven, mc. cbn. rewrite Nat.add_1_r. apply Hqc. exact Hr'.
  - assert (next = n) by lia. subst next.
    constructor; cbn [m_round m_next m_count m_points m_results o_place o_todo o_left q_count q_data]; try assumption.
    + discriminate.
    + rewrite seq_S, map_app, (i_results _ I). cbn. rewrite Ha. reflexivity.
    + intros r Hr'. unfold ungiven, mc. cbn. rewrite Nat.add_0_r. apply Hqc. exact Hr'.
    + intros r Hr'. unfold mm. cbn. rewrite Nat.add_0_r, Hqd by exact Hr'.
      destruct (Nat.ltb_spec r n); [rewrite Nat.add_1_r; reflexivity|lia].
Qed.

Lemma inv_step s s' : inv s -> stp s s' -> inv s'.
Proof.
  intros I. destruct 1 as [r l rest Hr P T|r Hr P E|Nx Rd Q|r l rest E Hr P T|i msg more Nx Q W|i l rest Nx Q Hr P T W].
  - (* give *)
    constructor; cbn [m_round m_next m_count m_points m_results o_place o_todo o_left q_count q_data]; try apply I.
    + intros r0 Hr0. unfold ungiven, mc. cbn. by_rank r0 r; [|apply (i_count _ I); exact Hr0].
      pose proof (i_count _ I r Hr) as C. unfold ungiven in C. rewrite P, T in C. rewrite T. cbn [tl map] in *.
      rewrite <- app_assoc. exact C.
    + intros r0 Hr0. by_rank r0 r; [congruence|]. apply (i_place _ I). exact Hr0.
  - (* leave *)
    constructor; cbn [m_round m_next m_count m_points m_results o_place o_todo o_left q_count q_data]; try apply I.
    + intros r0 Hr0. unfold ungiven, mc. cbn. by_rank r0 r; [|apply (i_count _ I); exact Hr0].
      pose proof (i_count _ I r Hr) as C. unfold ungiven in C. rewrite P in C. exact C.
    + intros r0 Hr0. by_rank r0 r; [|apply (i_place _ I); exact Hr0].
      intros _. apply (i_place _ I r Hr). rewrite P. discriminate.
  - (* gather *)
    assert (C : forall r, 1 <= r < n -> q_count s r ++ map (@length A) (ungiven s r) = map (@length A) (skipn (m_round s) (points r))).
    { intros r Hr. rewrite (i_count _ I r Hr). unfold mc. rewrite Nx, Nat.add_0_r. reflexivity. }
    assert (D : forall r, 1 <= r < n -> hd 0 (q_count s r) = length (nth (m_round s) (points r) []) /\
              tl (q_count s r) ++ map (@length A) (ungiven s r) = map (@length A) (skipn (S (m_round s)) (points r))).
    { intros r Hr. specialize (C r Hr). specialize (Q r Hr). rewrite (skipn_step (m_round s) (points r) []) in C by (rewrite rounds; lia).
      destruct (q_count s r) as [|c q]; [congruence|]. cbn in C. injection C as C1 C2. split; [exact C1|exact C2]. }
    apply advance_inv; [exact I| | | |apply I|apply I].
    + split; [lia|]. split; [exact Rd|]. split; [|intros r Hr; apply D; exact Hr].
      unfold up_to. cbn. rewrite app_nil_r. reflexivity.
    + intros r Hr. apply D. exact Hr.
    + intros r Hr. rewrite (i_data _ I r Hr). unfold mm. rewrite Nx. destruct (Nat.ltb_spec r 1); [lia|reflexivity].
  - (* send *)
    unfold sent. destruct (i_todo _ I r Hr) as (k & Hk & Tk & Lk). rewrite T in Tk. symmetry in Tk.
    destruct (skipn_cons _ _ _ _ [] Tk) as (N1 & N2 & N3 & N4 & N5).
    constructor; cbn [m_round m_next m_count m_points m_results o_place o_todo o_left q_count q_data]; try apply I.
    + intros r0 Hr0. unfold ungiven, mc. cbn. by_rank r0 r; [|apply (i_count _ I); exact Hr0].
      pose proof (i_count _ I r Hr) as C. unfold ungiven in C. rewrite P, T in C. exact C.
    + intros r0 Hr0. unfold mm. cbn. by_rank r0 r; [|apply (i_data _ I); exact Hr0].
      pose proof (i_data _ I r Hr) as C. rewrite T in C. rewrite <- app_assoc. exact C.
    + intros r0 Hr0. by_rank r0 r; [|apply (i_todo _ I); exact Hr0].
      exists (S k). split; [rewrite <- (rounds r); lia|]. split; [symmetry; exact N2|].
      rewrite N3, map_app, Lk. reflexivity.
    + intros r0 Hr0. by_rank r0 r; [congruence|]. apply (i_place _ I); exact Hr0.
  - (* receive *)
    destruct (i_next _ I i Nx) as (Hi & Rd & Ap & Cn).
    pose proof (i_data _ I i Hi) as C. unfold mm in C. rewrite Nx in C. destruct (Nat.ltb_spec i i); [lia|]. rewrite Nat.add_0_r in C.
    rewrite Q, (skipn_step (m_round s) (points i) []) in C by (rewrite rounds; lia). cbn [map app] in C. injection C as C1 C2.
    assert (Pk : In (nth (m_round s) (points i) []) (points i)) by (apply nth_In; rewrite rounds; lia).
    apply advance_inv; [exact I| | | |apply I|apply I].
    + split; [lia|]. split; [exact Rd|]. split; [|exact Cn]. rewrite Cn, C1 by exact Hi.
      rewrite (proj2 (packs i _ ltac:(lia) Pk)), Ap, up_to_S. reflexivity.
    + intros r Hr. rewrite <- (Nat.add_1_r (m_round s)). pose proof (i_count _ I r Hr) as C. unfold mc in C. rewrite Nx in C. exact C.
    + intros r Hr. by_rank r i.
      * destruct (Nat.ltb_spec i (S i)); [|lia]. rewrite Nat.add_1_r. exact C2.
      * rewrite (i_data _ I r Hr). unfold mm. rewrite Nx.
        destruct (Nat.ltb_spec r i), (Nat.ltb_spec r (S i)); try lia; reflexivity.
  - (* both *)
    destruct (i_next _ I i Nx) as (Hi & Rd & Ap & Cn). unfold sent.
    destruct (i_todo _ I i Hr) as (k & Hk & Tk & Lk). rewrite T in Tk. symmetry in Tk.
    destruct (skipn_cons _ _ _ _ [] Tk) as (N1 & N2 & N3 & N4 & N5).
    pose proof (i_data _ I i Hi) as C. unfold mm in C. rewrite Nx in C. destruct (Nat.ltb_spec i i); [lia|]. rewrite Nat.add_0_r in C.
    rewrite Q, T in C. pose proof (f_equal (@length _) C) as CL. cbn in CL. rewrite !map_length, skipn_length in CL.
    pose proof (f_equal (@length _) Tk) as TL. rewrite skipn_length in TL. cbn in TL. rewrite rounds in CL, TL, N4 by lia.
    assert (k = m_round s) by lia. subst k. clear C CL TL.
    apply advance_inv; [exact I| | | | |].
    + split; [lia|]. split; [exact Rd|]. split; [|exact Cn]. rewrite Cn, N1 by exact Hi.
      rewrite (proj2 (packs i l ltac:(lia) N5)), Ap, up_to_S, N1. reflexivity.
    + intros r Hr0. rewrite <- (Nat.add_1_r (m_round s)). pose proof (i_count _ I r Hr0) as C. unfold mc, ungiven in C. rewrite Nx in C.
      by_rank r i; [|exact C]. rewrite P, T in C. exact C.
    + intros r Hr0. by_rank r i.
      * destruct (Nat.ltb_spec i (S i)); [|lia]. rewrite Nat.add_1_r, Q, N2. reflexivity.
      * rewrite (i_data _ I r Hr0). unfold mm. rewrite Nx.
        destruct (Nat.ltb_spec r i), (Nat.ltb_spec r (S i)); try lia; reflexivity.
    + intros r0 Hr0. by_rank r0 i; [|apply (i_todo _ I); exact Hr0].
      exists (S (m_round s)). split; [lia|]. split; [symmetry; exact N2|]. rewrite N3, map_app, Lk. reflexivity.
    + intros r0 Hr0. by_rank r0 i; [congruence|]. apply (i_place _ I); exact Hr0.
Qed.
Lemma inv_reach s : reach s -> inv s.
Proof. induction 1; [apply inv_initial|eapply inv_step; eauto]. Qed.

(** no deadlock: as long as somebody is not through, some process can go on, even if every send and every
    gather waits *)
Theorem C101_no_deadlock : forall s, reach s -> ~ finished n points s -> exists s', stp s s'.
Proof.
  intros s Hs NF. apply inv_reach in Hs. rename Hs into I.
  destruct (m_next s) as [i|] eqn:Nx.
  - destruct (i_next _ I i Nx) as (Hi & Rd & Ap & Cn).
    pose proof (i_data _ I i Hi) as C. unfold mm in C. rewrite Nx in C. destruct (Nat.ltb_spec i i); [lia|]. rewrite Nat.add_0_r in C.
    rewrite (skipn_step (m_round s) (points i) []) in C by (rewrite rounds; lia). cbn [map] in C.
    assert (Pk : In (nth (m_round s) (points i) []) (points i)) by (apply nth_In; rewrite rounds; lia).
    destruct (q_data s i) as [|msg more] eqn:Q.
    + destruct (o_todo s i) as [|l rest] eqn:T; [discriminate|]. cbn [app map] in C. pose proof (f_equal (@length _) C) as CL.
      cbn [length] in CL. rewrite !map_length, skipn_length, rounds in CL by lia. injection C as C1 _.
      pose proof (i_count _ I i Hi) as D. unfold mc, ungiven in D. rewrite Nx, T in D.
      pose proof (f_equal (@length _) D) as DL. rewrite app_length, !map_length, skipn_length, rounds in DL by lia.
      destruct (o_place s i) eqn:P; cbn in DL.
      * lia.
      * eexists. apply (step_leave _ _ _ _ _ _ _ s i Hi P). right. apply length_zero_iff_nil. lia.
      * eexists. eapply (step_both _ _ _ _ _ _ _ s i l rest Nx Q Hi P T). rewrite Cn by exact Hi.
        rewrite C1, (proj1 (packs i _ ltac:(lia) Pk)). lia.
    + cbn [app map] in C. injection C as C1 C2. eexists. eapply (step_receive _ _ _ _ _ _ _ s i msg more Nx Q).
      rewrite Cn by exact Hi. rewrite C1, (proj1 (packs i _ ltac:(lia) Pk)). lia.
  - destruct (Nat.eq_dec (m_round s) R) as [E|E].
    + exfalso. apply NF. split; [exact E|]. split; [exact Nx|]. intros r Hr.
      pose proof (i_data _ I r Hr) as C. unfold mm in C. rewrite Nx, Nat.add_0_r, E in C.
      rewrite skipn_all2 in C by (rewrite rounds; lia). apply app_eq_nil in C. destruct C as [_ C]. apply map_eq_nil in C. exact C.
    + pose proof (i_round _ I) as Le.
      assert (X : (forall r, 1 <= r < n -> q_count s r <> []) \/ exists r, 1 <= r < n /\ q_count s r = []).
      { clear -n. assert (G : forall k, (forall r, 1 <= r < k -> q_count s r <> []) \/ exists r, 1 <= r < k /\ q_count s r = []).
        { induction k as [|k [IH|(r & Hr & E)]]; [left; lia| |right; exists r; split; [lia|exact E]].
          destruct (q_count s k) as [|c q] eqn:Q.
          - destruct k as [|k]; [left; lia|]. right. exists (S k). split; [lia|exact Q].
          - left. intros r Hr. destruct (Nat.eq_dec r k) as [->|]; [congruence|]. apply IH. lia. }
        apply G. }
      destruct X as [X|(r & Hr & Q)].
      * eexists. apply (step_gather _ _ _ _ _ _ _ s Nx); [lia|exact X].
      * pose proof (i_count _ I r Hr) as D. unfold mc, ungiven in D. rewrite Nx, Nat.add_0_r, Q in D.
        pose proof (i_data _ I r Hr) as C. unfold mm in C. rewrite Nx, Nat.add_0_r in C.
        apply (f_equal (@length _)) in C, D. rewrite ?app_length, !map_length, skipn_length, rounds in C, D by lia. cbn in D.
        destruct (o_todo s r) as [|l rest] eqn:T.
        { destruct (o_place s r); cbn in D; lia. }
        destruct (o_place s r) eqn:P; cbn in C, D.
        -- eexists. eapply (step_give _ _ _ _ _ _ _ s r l rest Hr P T).
        -- eexists. apply (step_leave _ _ _ _ _ _ _ s r Hr P). right. exact Q.
        -- lia.
Qed.

(** every schedule is finite *)
Definition weight (s : system A V) (r : nat) : nat :=
  3 * length (o_todo s r) - match o_place s r with BeforeGather => 0 | InGather => 1 | BeforeSend => 2 end.
Definition to_do (s : system A V) : nat :=
  (R - m_round s) * n - (match m_next s with Some i => i | None => 0 end) + list_sum (map (weight s) (seq 1 (n - 1))).
Lemma sum_one (f g : nat -> nat) (l : list nat) r : NoDup l -> In r l -> f r < g r -> (forall x, x <> r -> f x = g x) ->
  list_sum (map f l) < list_sum (map g l).
Proof.
  induction l as [|a l IH]; intros ND Hi L E; [destruct Hi|]. inversion ND as [|? ? N1 N2]; subst.
  change (f a + list_sum (map f l) < g a + list_sum (map g l)).
  destruct Hi as [->|Hi].
  - rewrite (map_ext_in f g l); [lia|]. intros x Hx. apply E. intros ->. contradiction.
  - specialize (IH N2 Hi L E). rewrite (E a); [lia|]. intros ->. contradiction.
Qed.
Lemma sum_le (f g : nat -> nat) (l : list nat) : (forall x, f x <= g x) -> list_sum (map f l) <= list_sum (map g l).
Proof. intros H. induction l as [|a l IH]; [cbn; lia|]. change (f a + list_sum (map f l) <= g a + list_sum (map g l)). specialize (H a). lia. Qed.

Theorem C101_terminates : forall s s', reach s -> stp s s' -> to_do s' < to_do s.
Proof.
  intros s s' Hs. apply inv_reach in Hs. rename Hs into I. pose proof (i_round _ I) as Le.
  assert (RA : forall next count acc pl td lf qc qd, 1 <= next <= n -> m_round s < R ->
     let s1 := advance n s next count acc pl td lf qc qd in
     (R - m_round s1) * n - match m_next s1 with Some i => i | None => 0 end = (R - m_round s) * n - next /\
     (forall r, weight s1 r = 3 * length (td r) - match pl r with BeforeGather => 0 | InGather => 1 | BeforeSend => 2 end)).
  { intros next count acc pl td lf qc qd Hx Hr s1. unfold s1, advance. destruct (Nat.ltb_spec next n); cbn; [auto|].
    split; [|reflexivity]. assert (next = n) by lia. subst. rewrite Nat.sub_0_r.
    replace (R - m_round s) with (S (R - S (m_round s))) by lia. rewrite Nat.mul_succ_l. symmetry. apply Nat.add_sub. }
  assert (IN : forall r, 1 <= r < n -> In r (seq 1 (n - 1))) by (intros r Hr; apply in_seq; lia).
  assert (RP : m_round s < R -> n <= (R - m_round s) * n).
  { intros H. replace (R - m_round s) with (S (R - S (m_round s))) by lia. rewrite Nat.mul_succ_l. apply Nat.le_add_l. }
  destruct 1 as [r l rest Hr P T|r Hr P E|Nx Rd Q|r l rest E Hr P T|i msg more Nx Q W|i l rest Nx Q Hr P T W]; unfold to_do.
  - cbn [m_round m_next]. apply Nat.add_lt_mono_l. apply sum_one with r; [apply seq_NoDup|auto| |].
    + unfold weight. cbn. rewrite upd_same, P, T. cbn. lia.
    + intros x Hx. unfold weight. cbn. rewrite upd_other by exact Hx. reflexivity.
  - cbn [m_round m_next]. apply Nat.add_lt_mono_l. apply sum_one with r; [apply seq_NoDup|auto| |].
    + unfold weight. cbn. rewrite upd_same, P. pose proof (i_place _ I r Hr) as H. rewrite P in H.
      destruct (o_todo s r); [exfalso; apply H; [discriminate|reflexivity]|]. cbn. lia.
    + intros x Hx. unfold weight. cbn. rewrite upd_other by exact Hx. reflexivity.
  - destruct (RA 1 (fun r => hd 0 (q_count s r)) (nth (m_round s) (points 0) []) (o_place s) (o_todo s) (o_left s) (fun r => tl (q_count s r)) (q_data s) ltac:(lia) Rd) as [E1 E2].
    rewrite E1, (map_ext _ _ E2), Nx. unfold weight. specialize (RP Rd). lia.
  - unfold sent. cbn [m_round m_next]. apply Nat.add_lt_mono_l. apply sum_one with r; [apply seq_NoDup|auto| |].
    + unfold weight. cbn. rewrite !upd_same, P, T. cbn. lia.
    + intros x Hx. unfold weight. cbn. rewrite !upd_other by exact Hx. reflexivity.
  - destruct (i_next _ I i Nx) as (Hi & Rd & _).
    destruct (RA (S i) (m_count s) (m_points s ++ decode (m_count s i) msg) (o_place s) (o_todo s) (o_left s) (q_count s) (upd (q_data s) i more) ltac:(lia) Rd) as [E1 E2].
    rewrite E1, (map_ext _ _ E2), Nx. unfold weight. specialize (RP Rd). lia.
  - destruct (i_next _ I i Nx) as (Hi & Rd & _). unfold sent.
    destruct (RA (S i) (m_count s) (m_points s ++ decode (m_count s i) (encode l)) (upd (o_place s) i BeforeGather) (upd (o_todo s) i rest) (upd (o_left s) i (o_left s i ++ [if drop then [] else l])) (q_count s) (q_data s) ltac:(lia) Rd) as [E1 E2].
    rewrite E1, (map_ext _ _ E2), Nx. specialize (RP Rd).
    assert (list_sum (map (fun r => 3 * length (upd (o_todo s) i rest r) - match upd (o_place s) i BeforeGather r with BeforeGather => 0 | InGather => 1 | BeforeSend => 2 end) (seq 1 (n - 1)))
              <= list_sum (map (weight s) (seq 1 (n - 1)))); [|lia].
    apply sum_le. intros x. unfold weight. by_rank x i; [|lia]. rewrite T, P. cbn. lia.
Qed.

(** the result does not depend on the schedule *)
Theorem C101_result : forall s, reach s -> finished n points s ->
  m_results s = map all_points (seq 0 R) /\
  forall r, 1 <= r < n -> o_left s r = if drop then repeat [] R else points r.
Proof.
  intros s Hs (E & Nx & T). apply inv_reach in Hs. rename Hs into I. split.
  - rewrite (i_results _ I), E. reflexivity.
  - intros r Hr. destruct (i_todo _ I r Hr) as (k & Hk & Tk & Lk). rewrite (T r Hr) in Tk. symmetry in Tk.
    apply (f_equal (@length _)) in Tk. rewrite skipn_length in Tk. cbn in Tk. rewrite Lk.
    rewrite firstn_all2 by lia. unfold dropped. destruct drop; [|rewrite map_id; reflexivity].
    rewrite <- (rounds r) by lia. clear. induction (points r) as [|x l IH]; [reflexivity|]. cbn. f_equal. exact IH.
Qed.
(** at any time the first process has collected a beginning of the points of the current round *)
Theorem C101_meanwhile : forall s, reach s -> m_results s = map all_points (seq 0 (m_round s)) /\
  forall i, m_next s = Some i -> m_points s = up_to (m_round s) i.
Proof.
  intros s Hs. apply inv_reach in Hs. split; [apply Hs|]. intros i Nx. destruct (i_next _ Hs i Nx) as (_ & _ & H & _). exact H.
Qed.
End Schedules.
Print Assumptions C101_no_deadlock.
Print Assumptions C101_terminates.
Print Assumptions C101_result.
Print Assumptions C101_meanwhile.

(** ** The two exchanges of the code *)
(** All in one: with every scheduling of the processes and every choice of the library between waiting and
    not waiting, the exchange comes to its end, and there the first process has the points of all
    processes, ordered by process, in every round. *)
Definition correct_exchange {A V} (stp : system A V -> system A V -> Prop) (reach : system A V -> Prop)
    (drop : bool) (n : nat) (points : nat -> list (list A)) : Prop :=
  (* whatever happened so far, the exchange can be finished *)
  (forall s, reach s -> exists s', clos_refl_trans _ stp s s' /\ finished n points s') /\
  (* no schedule goes on forever *)
  (forall history : nat -> system A V, reach (history 0) -> ~ forall k, stp (history k) (history (S k))) /\
  (* when nobody can go on everybody is through, and the points have arrived *)
  (forall s, reach s -> (forall s', ~ stp s s') -> finished n points s /\
     m_results s = map (fun m => flat_map (fun r => nth m (points r) []) (seq 0 n)) (seq 0 (length (points 0))) /\
     forall r, 1 <= r < n -> o_left s r = if drop then repeat [] (length (points 0)) else points r).

Lemma finished_dec {A V} n points (s : system A V) : finished n points s \/ ~ finished n points s.
Proof.
  destruct (Nat.eq_dec (m_round s) (length (points 0))) as [E|E]; [|right; intros (F & _); contradiction].
  destruct (m_next s) as [i|] eqn:Nx; [right; intros (_ & F & _); congruence|].
  assert (G : forall k, (forall r, 1 <= r < k -> o_todo s r = []) \/ exists r, 1 <= r < k /\ o_todo s r <> []).
  { induction k as [|k [IH|(r & Hr & F)]]; [left; lia| |right; exists r; split; [lia|exact F]].
    destruct k as [|k]; [left; lia|]. destruct (o_todo s (S k)) eqn:T.
    - left. intros r Hr. destruct (Nat.eq_dec r (S k)) as [->|]; [exact T|apply IH; lia].
    - right. exists (S k). split; [lia|congruence]. }
  destruct (G n) as [F|(r & Hr & F)].
  - left. split; [exact E|]. split; [exact Nx|exact F].
  - right. intros (_ & _ & H). apply F, H. exact Hr.
Qed.

Theorem C101_exchange : forall (A V : Type) width (encode : list A -> list V) decode drop eager n points, 1 <= n ->
  (forall r, r < n -> length (points r) = length (points 0)) ->
  (forall r l, r < n -> In l (points r) -> length (encode l) = width * length l /\ decode (length l) (encode l) = l) ->
  correct_exchange (step width encode decode drop eager n points) (reachable width encode decode drop eager n points) drop n points.
Proof.
  intros A V width encode decode drop eager n points Hn Hr Hp.
  pose proof (C101_no_deadlock width encode decode drop eager n points Hn Hr Hp) as ND.
  pose proof (C101_terminates width encode decode drop eager n points Hn Hr Hp) as TM.
  pose proof (C101_result width encode decode drop eager n points Hn Hr Hp) as RS.
  split; [|split].
  - intros s. remember (to_do n points s) as k eqn:K. revert s K. induction k as [k IH] using lt_wf_ind. intros s -> Hs.
    destruct (finished_dec n points s) as [F|F]; [exists s; split; [apply rt_refl|exact F]|].
    destruct (ND s Hs F) as [s1 S1]. destruct (IH _ (TM s s1 Hs S1) s1 eq_refl) as (s2 & C & F2).
    { eapply reach_step; eauto. }
    exists s2. split; [|exact F2]. eapply rt_trans; [apply rt_step; exact S1|exact C].
  - intros h H0 H.
    assert (RH : forall k, reachable width encode decode drop eager n points (h k)) by (induction k; [exact H0|eapply reach_step; eauto]).
    assert (G : forall k, to_do n points (h k) + k <= to_do n points (h 0)).
    { induction k as [|k IHk]; [lia|]. specialize (TM _ _ (RH k) (H k)). lia. }
    specialize (G (S (to_do n points (h 0)))). lia.
  - intros s Hs Stop. destruct (finished_dec n points s) as [F|F].
    + split; [exact F|]. destruct (RS s Hs F) as [R1 R2]. split; [exact R1|exact R2].
    + destruct (ND s Hs F) as [s' S']. exfalso. eapply Stop. exact S'.
Qed.
Print Assumptions C101_exchange.

(** drivencavity, periodic_channel: the senders keep their points *)
Theorem C101_line_exchange : forall (V : Type) (zero : V) dim eager n (points : nat -> list (list line_point)), 1 <= n ->
  (forall r, r < n -> length (points r) = length (points 0)) ->
  (forall r l p, r < n -> In l (points r) -> In p l -> length (fst p) = dim) ->
  let send := line_send zero dim in let receive := line_receive zero dim in let w := line_width dim in
  correct_exchange (step w send receive false eager n points) (reachable w send receive false eager n points) false n points.
Proof.
  intros V zero dim eager n points Hn Hr Hp send receive w. apply C101_exchange; [exact Hn|exact Hr|].
  intros r l Hrn Hl. apply C101_line_messages. intros p. apply (Hp r l p Hrn Hl).
Qed.
Print Assumptions C101_line_exchange.

(** compute_bubble_statistics: the senders give up their points *)
Theorem C101_surface_exchange : forall (V : Type) (zero : V) dim eager n (points : nat -> list (list surface_point)), 1 <= n ->
  (forall r, r < n -> length (points r) = length (points 0)) ->
  (forall r l p, r < n -> In l (points r) -> In p l -> length p = 2 /\ forall row, In row p -> length row = dim) ->
  let send := surface_send zero dim in let receive := surface_receive zero dim in let w := surface_width dim in
  correct_exchange (step w send receive true eager n points) (reachable w send receive true eager n points) true n points.
Proof.
  intros V zero dim eager n points Hn Hr Hp send receive w. apply C101_exchange; [exact Hn|exact Hr|].
  intros r l Hrn Hl. apply C101_surface_messages. intros p. apply (Hp r l p Hrn Hl).
Qed.
Print Assumptions C101_surface_exchange.

(** ** The hypotheses are met: three processes, two rounds, one without points in the first round *)
Definition ex_points (r : nat) : list (list (@line_point nat)) :=
  match r with
  | 0 => [[([1; 2], 3)]; [([4; 5], 6); ([7; 8], 9)]]
  | 1 => [[]; [([10; 11], 12)]]
  | _ => [[([20; 21], 22); ([23; 24], 25)]; [([26; 27], 28)]]
  end.
Example C101_nonvacuous :
  (forall r, r < 3 -> length (ex_points r) = length (ex_points 0)) /\
  (forall r l p, r < 3 -> In l (ex_points r) -> In p l -> length (fst p) = 2) /\
  line_send 0 2 [([20; 21], 22); ([23; 24], 25)] = [20; 21; 22; 23; 24; 25] /\
  flat_map (fun r => nth 1 (ex_points r) []) (seq 0 3) = [([4; 5], 6); ([7; 8], 9); ([10; 11], 12); ([26; 27], 28)].
Proof.
  split; [intros r Hr; do 3 (destruct r as [|r]; [reflexivity|]); lia|].
  split; [|split; reflexivity].
  intros r l p Hr Hl Hp. do 3 (destruct r as [|r]; [cbn in Hl; intuition (subst; cbn in Hp; intuition (subst; reflexivity))|]). lia.
Qed.
