(** * C120: the sections of the timing table are opened and closed in pairs *)
From Coq Require Import String List Bool Arith Lia.
From Verif Require Import Model_TimerSections.
Import ListNotations.
Open Scope string_scope.
Open Scope list_scope.
Open Scope prog_scope.

(** ** Specification *)

(** the sections of the library, by the way they are opened: by hand with
    enter_subsection, or by a scope object *)
Definition manual_sections : list string :=
  ["NS distribute DoFs."; "NS setup matrix and vectors.";
   "NS assemble preconditioner."; "NS build preconditioner.";
   "NS solve system."; "NS apply boundary conditions.";
   "TP setup problem."; "Refine grid."; "Probe grid refinement.";
   "TP create output."; "Cahn-Hilliard preconditioner."; "Cahn-Hilliard solve.";
   "Cahn-Hilliard residual."; "Compute force."].
Definition scoped_sections : list string :=
  ["NS solve velocity"; "NS solve pressure"; "NS assemble nonlinear residual.";
   "LS compute Heaviside."; "LS compute normal."; "LS compute curvature.";
   "LS compute force."; "LS advance concentration."; "LS reinitialization step.";
   "Compute Heaviside."; "Compute normal."; "Compute curvature.";
   "Advance concentration."; "Reinitialization."; "Create output"].
Definition library_sections : list string := manual_sections ++ scoped_sections.

(** the open sections are all the user's own *)
Definition foreign (a : list string) : Prop := forall s, In s a -> ~ In s library_sections.

(** how often a section was opened and closed *)
Definition began (s : string) (t : list event) : nat :=
  length (filter (fun e => match e with Began x => String.eqb x s | _ => false end) t).
Definition ended (s : string) (t : list event) : nat :=
  length (filter (fun e => match e with Ended x => String.eqb x s | _ => false end) t).

(** where the time of some of the work has to be booked *)
Definition booked : list (string * list string) :=
  [("linear solve", ["NS solve system."; "Cahn-Hilliard solve."]);
   ("preconditioner matrices", ["NS assemble preconditioner."]);
   ("velocity solve", ["NS solve velocity"]);
   ("pressure solve", ["NS solve pressure"]);
   ("residual", ["NS assemble nonlinear residual."; "Cahn-Hilliard residual."]);
   ("normal", ["LS compute normal."; "Compute normal."]);
   ("curvature", ["LS compute curvature."; "Compute curvature."]);
   ("heaviside", ["LS compute Heaviside."; "Compute Heaviside."]);
   ("level set solve", ["LS advance concentration."; "Advance concentration."]);
   ("reinitialization", ["LS reinitialization step."; "Reinitialization."])].

(** a user's session: own sections opened and closed around library calls *)
Inductive step := Open (s : string) | CloseLast | Call (p : prog).
Definition step_prog (x : step) : prog :=
  match x with Open s => Enter s | CloseLast => Leave | Call p => p end.
(** the user opens only sections with names of his own, and calls the library *)
Definition proper (x : step) : Prop :=
  match x with Open s => ~ In s library_sections | CloseLast => True | Call p => api p end.
(** the sections open according to the user's own bookkeeping; None when he
    opens one twice or closes one too many *)
Fixpoint own (l : list step) (a : list string) : option (list string) :=
  match l with
  | [] => Some a
  | Open s :: r => if existsb (String.eqb s) a then None else own r (a ++ [s])
  | CloseLast :: r => match a with [] => None | _ => own r (removelast a) end
  | Call _ :: r => own r a
  end.
Fixpoint whole (l : list step) : prog :=
  match l with [] => Skip | x :: r => step_prog x ;; whole r end.

(** ** An analysis of programs *)
Definition exc_eqb (x y : exc) : bool :=
  match x, y with
  | NonlinearNoConvergence, NonlinearNoConvergence
  | LinearNoConvergence, LinearNoConvergence | OtherError, OtherError => true
  | _, _ => false
  end.
Definition mem (s : string) (l : list string) : bool := existsb (String.eqb s) l.
Fixpoint leqb (a b : list string) : bool :=
  match a, b with
  | [], [] => true
  | x :: a, y :: b => String.eqb x y && leqb a b
  | _, _ => false
  end.

Record result := MkR { r_end : list string;
                       r_throw : list (exc * list string);
                       r_work : list (string * list string) }.

Definition throw_dec (x y : exc * list string) : {x = y} + {x <> y}.
Proof. repeat decide equality. Defined.
Definition work_dec (x y : string * list string) : {x = y} + {x <> y}.
Proof. repeat decide equality. Defined.

Definition join (x y : result) : result :=
  MkR (r_end y) (nodup throw_dec (r_throw x ++ r_throw y))
      (nodup work_dec (r_work x ++ r_work y)).

(** the handler from each of the states in which the exception can be raised *)
Fixpoint handlers (H : list string -> option result) (e : exc) (fin : list string)
  (l : list (exc * list string)) : option result :=
  match l with
  | [] => Some (MkR fin [] [])
  | (x, v) :: l =>
      match handlers H e fin l with
      | None => None
      | Some r =>
          if exc_eqb x e then
            match H v with
            | Some k => if leqb (r_end k) fin then Some (join k r) else None
            | None => None
            end
          else Some r
      end
  end.

Fixpoint an (p : prog) (w : list string) : option result :=
  match p with
  | Skip => Some (MkR w [] [])
  | Work l => Some (MkR w [(LinearNoConvergence, w); (OtherError, w)] [(l, w)])
  | Raise e => Some (MkR w [(e, w)] [])
  | Enter s => if mem s w then None else Some (MkR (w ++ [s]) [] [])
  | Leave => match w with [] => None | _ => Some (MkR (removelast w) [] []) end
  | Scope s p =>
      if mem s w then None else
      match an p (w ++ [s]) with
      | None => None
      | Some r => if leqb (r_end r) (w ++ [s]) && forallb (fun x => mem s (snd x)) (r_throw r)
                  then Some (MkR w (map (fun x => (fst x, close s (snd x))) (r_throw r)) (r_work r))
                  else None
      end
  | Seq p q => match an p w with
               | None => None
               | Some r => match an q (r_end r) with
                           | None => None
                           | Some r' => Some (join r r') end end
  | Choice p q => match an p w, an q w with
                  | Some r, Some r' => if leqb (r_end r) (r_end r') then Some (join r r') else None
                  | _, _ => None end
  | Loop p => match an p w with
              | Some r => if leqb (r_end r) w then Some r else None
              | None => None end
  | Try p e h =>
      match an p w with
      | None => None
      | Some r =>
          match handlers (an h) e (r_end r) (r_throw r) with
          | None => None
          | Some k => Some (MkR (r_end r)
              (nodup throw_dec (filter (fun x => negb (exc_eqb (fst x) e)) (r_throw r) ++ r_throw k))
              (nodup work_dec (r_work r ++ r_work k)))
          end
      end
  end.

Fixpoint names (p : prog) : list string :=
  match p with
  | Enter s => [s]
  | Scope s p => s :: names p
  | Seq p q | Choice p q | Try p _ q => names p ++ names q
  | Loop p => names p
  | _ => []
  end.

(** ** Soundness *)
Lemma mem_spec : forall s l, mem s l = true <-> In s l.
Proof.
  intros s l. unfold mem. rewrite existsb_exists. split.
  - intros [x [H K]]. apply String.eqb_eq in K. subst. exact H.
  - intro H. exists s. split; [exact H|apply String.eqb_refl].
Qed.
Lemma mem_false : forall s l, mem s l = false -> ~ In s l.
Proof. intros s l H K. apply mem_spec in K. congruence. Qed.
Lemma leqb_eq : forall a b, leqb a b = true -> a = b.
Proof.
  induction a as [|x a IH]; destruct b as [|y b]; cbn; try discriminate; auto.
  intro H. apply andb_prop in H. destruct H as [H K].
  apply String.eqb_eq in H. apply IH in K. congruence.
Qed.
Lemma exc_eqb_eq : forall x y, exc_eqb x y = true <-> x = y.
Proof. destruct x, y; cbn; split; congruence. Qed.

Lemma close_notin : forall s a, ~ In s a -> close s a = a.
Proof.
  induction a as [|x a IH]; cbn; intro H; [reflexivity|].
  destruct (String.eqb_spec x s); [exfalso; apply H; left; exact e|].
  rewrite IH; [reflexivity|tauto].
Qed.
Lemma close_app : forall s a v, ~ In s a -> close s (a ++ v) = a ++ close s v.
Proof.
  induction a as [|x a IH]; cbn; intros v H; [reflexivity|].
  destruct (String.eqb_spec x s); [exfalso; apply H; left; exact e|].
  rewrite IH; [reflexivity|tauto].
Qed.
Lemma close_last : forall s w, ~ In s w -> close s (w ++ [s]) = w.
Proof.
  intros s w H. rewrite close_app by exact H. cbn. rewrite String.eqb_refl.
  apply app_nil_r.
Qed.
Lemma close_in : forall s x w, In x (close s w) -> In x w.
Proof.
  induction w as [|y w IH]; cbn; [tauto|]. intro H.
  destruct (String.eqb y s); [tauto|]. cbn in H. tauto.
Qed.
Lemma close_nodup : forall s w, NoDup w -> NoDup (close s w).
Proof.
  induction w as [|y w IH]; intro H; cbn; [exact H|].
  inversion H as [|? ? N1 N2]; subst.
  destruct (String.eqb y s); [exact N2|]. constructor; [|auto].
  intro K. apply close_in in K. tauto.
Qed.

Definition count (s : string) (a : list string) : nat := count_occ string_dec a s.
Lemma count_app : forall s a b, count s (a ++ b) = count s a + count s b.
Proof. intros. unfold count. apply count_occ_app. Qed.
Lemma count_close : forall s x w, In s w ->
  count x (close s w) + (if String.eqb s x then 1 else 0) = count x w.
Proof.
  induction w as [|y w IH]; intro H; [destruct H|]. cbn [close].
  destruct (String.eqb_spec y s).
  - subst y. unfold count. cbn. destruct (string_dec s x) as [E|E].
    + subst. rewrite String.eqb_refl. lia.
    + rewrite (proj2 (String.eqb_neq s x) E). lia.
  - destruct H as [H|H]; [congruence|]. specialize (IH H). revert IH. unfold count. cbn.
    destruct (string_dec y x); lia.
Qed.
Lemma began_app : forall s t u, began s (t ++ u) = began s t + began s u.
Proof. intros. unfold began. rewrite filter_app, app_length. reflexivity. Qed.
Lemma ended_app : forall s t u, ended s (t ++ u) = ended s t + ended s u.
Proof. intros. unfold ended. rewrite filter_app, app_length. reflexivity. Qed.

Definition fits (a w : list string) : Prop := NoDup w /\ forall s, In s w -> ~ In s a.
Lemma fits_snoc : forall a w s, fits a w -> ~ In s w -> ~ In s a -> fits a (w ++ [s]).
Proof.
  intros a w s [N D] H K. split.
  - apply NoDup_rev in N. rewrite <- (rev_involutive (w ++ [s])). apply NoDup_rev.
    rewrite rev_app_distr. cbn. constructor; [|exact N]. intro E. apply in_rev in E. tauto.
  - intros x E. apply in_app_or in E. destruct E as [E|[E|[]]]; [auto|subst; auto].
Qed.
Lemma fits_init : forall a w s, fits a (w ++ [s]) -> fits a w /\ ~ In s w /\ ~ In s a.
Proof.
  intros a w s [N D]. split; [split|split].
  - apply NoDup_remove_1 in N. rewrite app_nil_r in N. exact N.
  - intros x H. apply D. apply in_or_app. left. exact H.
  - apply NoDup_remove_2 in N. rewrite app_nil_r in N. exact N.
  - apply D. apply in_or_app. right. left. reflexivity.
Qed.
Lemma fits_close : forall a w s, fits a w -> fits a (close s w).
Proof.
  intros a w s [N D]. split; [apply close_nodup, N|].
  intros x H. apply D. eapply close_in, H.
Qed.

Definition balance (a : list string) (t : list event) (b : list string) : Prop :=
  forall s, count s b + ended s t = count s a + began s t.

Definition ends (a : list string) (r : result) (o : outcome) (b : list string) : Prop :=
  match o with
  | Done => b = a ++ r_end r /\ fits a (r_end r)
  | Thrown e => exists v, b = a ++ v /\ In (e, v) (r_throw r) /\ fits a v
  | Aborted => False
  end.
Definition works (a : list string) (r : result) (t : list event) : Prop :=
  forall l z, In (Did l z) t -> exists v, z = a ++ v /\ In (l, v) (r_work r).

Lemma works_incl : forall a r r' t, works a r t ->
  (forall x, In x (r_work r) -> In x (r_work r')) -> works a r' t.
Proof. intros a r r' t H K l z Hz. destruct (H l z Hz) as [v [E F]]. exists v. auto. Qed.
Lemma works_app : forall a r t u, works a r t -> works a r u -> works a r (t ++ u).
Proof. intros a r t u H K l z Hz. apply in_app_or in Hz. destruct Hz; auto. Qed.
Lemma join_throw : forall x y c, In c (r_throw (join x y)) <-> In c (r_throw x) \/ In c (r_throw y).
Proof. intros. cbn. rewrite nodup_In, in_app_iff. reflexivity. Qed.
Lemma join_work : forall x y c, In c (r_work (join x y)) <-> In c (r_work x) \/ In c (r_work y).
Proof. intros. cbn. rewrite nodup_In, in_app_iff. reflexivity. Qed.

Lemma handlers_spec : forall H e fin l k, handlers H e fin l = Some k ->
  r_end k = fin /\
  forall v, In (e, v) l -> exists r, H v = Some r /\ r_end r = fin /\
    (forall c, In c (r_throw r) -> In c (r_throw k)) /\
    (forall c, In c (r_work r) -> In c (r_work k)).
Proof.
  induction l as [|[x v] l IH]; intros k E; cbn in E.
  - injection E as <-. split; [reflexivity|intros v []].
  - destruct (handlers H e fin l) as [r|] eqn:El; [|discriminate].
    destruct (IH _ eq_refl) as [F G].
    destruct (exc_eqb x e) eqn:Ex.
    + destruct (H v) as [q|] eqn:Eq; [|discriminate].
      destruct (leqb (r_end q) fin) eqn:Ef; [|discriminate]. injection E as <-.
      apply leqb_eq in Ef. split; [exact F|].
      intros v' [K|K].
      * injection K as -> ->. exists q. repeat split; auto.
        -- intros c Hc. apply join_throw. left. exact Hc.
        -- intros c Hc. apply join_work. left. exact Hc.
      * destruct (G _ K) as [r' [A [B [C D]]]]. exists r'. repeat split; auto.
        -- intros c Hc. apply join_throw. right. auto.
        -- intros c Hc. apply join_work. right. auto.
    + injection E as <-. split; [exact F|]. intros v' [K|K]; [|auto].
      injection K as -> ->. destruct e; discriminate.
Qed.

Lemma app_last_inv : forall (a w x : list string) s, a ++ w = x ++ [s] -> w <> [] ->
  exists w', w = w' ++ [s] /\ x = a ++ w'.
Proof.
  intros a w x s E N. destruct (exists_last N) as [w' [s' ->]].
  rewrite app_assoc in E. apply app_inj_tail in E. destruct E as [<- <-]. eauto.
Qed.

Theorem an_sound : forall p a' t o b, exec p a' t o b ->
  forall a w, a' = a ++ w -> fits a w -> (forall s, In s (names p) -> ~ In s a) ->
  forall r, an p w = Some r -> ends a r o b /\ works a r t /\ balance a' t b.
Proof.
  intros p a' t o b X. induction X; intros a0 w0 E F D r A; subst; cbn [names] in D; cbn [an] in A.
  - (* skip *) injection A as <-. split; [split; auto|]. split; [intros l z []|intro s; reflexivity].
  - injection A as <-. split; [split; auto|]. split; [|intro s; reflexivity].
    intros l z [Q|[]]. injection Q as <- <-. exists w0. cbn. auto.
  - injection A as <-. split; [exists w0; cbn; auto|]. split; [|intro s; reflexivity].
    intros l z [Q|[]]. injection Q as <- <-. exists w0. cbn. auto.
  - injection A as <-. split; [exists w0; cbn; auto|]. split; [|intro s; reflexivity].
    intros l z [Q|[]]. injection Q as <- <-. exists w0. cbn. auto.
  - injection A as <-. split; [exists w0; cbn; auto|]. split; [intros l z []|intro s; reflexivity].
  - (* enter *) destruct (mem s w0) eqn:M; [discriminate|]. injection A as <-. cbn [r_end].
    apply mem_false in M. split; [|split].
    + cbn. split; [rewrite app_assoc; reflexivity|]. apply fits_snoc; auto. apply D. left. reflexivity.
    + intros l z [Q|[]]. discriminate.
    + intro x. rewrite count_app. unfold began, ended. cbn. unfold count. cbn.
      destruct (string_dec s x) as [Q|Q].
      * subst. rewrite String.eqb_refl. cbn. lia.
      * rewrite (proj2 (String.eqb_neq s x) Q). cbn. lia.
  - (* enter, open *) destruct (mem s w0) eqn:M; [discriminate|]. exfalso.
    apply in_app_or in H. destruct H as [H|H].
    + apply (D s); [left; reflexivity|exact H].
    + apply (mem_false _ _ M H).
  - (* leave *) destruct w0 as [|x0 w0]; [discriminate|].
    assert (A' : r = MkR (removelast (x0 :: w0)) [] []) by congruence. clear A. subst r.
    set (w := x0 :: w0) in *.
    assert (N : w <> []) by (unfold w; discriminate). clearbody w.
    symmetry in E. destruct (app_last_inv _ _ _ _ E N) as [w' [-> ->]].
    rewrite removelast_last. destruct (fits_init _ _ _ F) as [F1 [F2 F3]].
    split; [|split].
    + split; [|exact F1]. rewrite <- app_assoc. rewrite close_app by exact F3.
      rewrite close_last by exact F2. reflexivity.
    + intros l z [Q|[]]. discriminate.
    + intro x. pose proof (count_close s x ((a0 ++ w') ++ [s]) ltac:(apply in_or_app; right; left; reflexivity)) as K.
      unfold began, ended. cbn. destruct (String.eqb s x); cbn; lia.
  - (* leave, none *) destruct a0; [|discriminate]. cbn in E. subst w0. discriminate.
  - (* scope *)
    destruct (mem s w0) eqn:M; [discriminate|]. apply mem_false in M.
    destruct (an p (w0 ++ [s])) as [q|] eqn:Q; [|discriminate].
    destruct (leqb (r_end q) (w0 ++ [s]) && forallb (fun x => mem s (snd x)) (r_throw q)) eqn:L; [|discriminate].
    apply andb_prop in L. destruct L as [L1 L2]. apply leqb_eq in L1. injection A as <-.
    assert (Da : ~ In s a0) by (apply D; left; reflexivity).
    destruct (IHX a0 (w0 ++ [s])) with (r := q) as [I1 [I2 I3]]; auto.
    { rewrite app_assoc. reflexivity. }
    { apply fits_snoc; auto. }
    { intros x Hx. apply D. right. exact Hx. }
    assert (Sb : In s b).
    { destruct o; cbn in I1.
      - destruct I1 as [-> _]. rewrite L1. apply in_or_app; right; apply in_or_app; right; left; reflexivity.
      - destruct I1 as [v [-> [V _]]]. rewrite forallb_forall in L2. specialize (L2 _ V). cbn in L2.
        apply mem_spec in L2. apply in_or_app. right. exact L2.
      - destruct I1. }
    split; [|split].
    + destruct o; cbn in I1 |- *.
      * destruct I1 as [-> I1]. split; [|exact F]. rewrite L1. rewrite close_app by exact Da.
        rewrite close_last by exact M. reflexivity.
      * destruct I1 as [v [-> [V G]]]. exists (close s v). split; [apply close_app; exact Da|].
        split; [|apply fits_close, G]. apply in_map_iff. exists (e, v). auto.
      * destruct I1.
    + intros l z Hz. destruct Hz as [Hz|Hz]; [discriminate|]. apply in_app_or in Hz.
      destruct Hz as [Hz|[Hz|[]]]; [|discriminate]. exact (I2 l z Hz).
    + intro x. pose proof (I3 x) as I. pose proof (count_close s x b Sb) as K.
      rewrite count_app in I. unfold count at 3 in I. cbn in I.
      change (Began s :: t ++ [Ended s]) with ([Began s] ++ t ++ [Ended s]).
      rewrite !began_app, !ended_app. unfold began at 1 3, ended at 1 3. cbn.
      destruct (string_dec s x) as [R|R].
      * subst. rewrite String.eqb_refl in *. cbn. lia.
      * rewrite (proj2 (String.eqb_neq s x) R) in *. cbn. lia.
  - (* scope, abort *)
    destruct (mem s w0) eqn:M; [discriminate|]. apply mem_false in M.
    destruct (an p (w0 ++ [s])) as [q|] eqn:Q; [|discriminate].
    assert (Da : ~ In s a0) by (apply D; left; reflexivity).
    destruct (IHX a0 (w0 ++ [s])) with (r := q) as [I1 _]; auto.
    { rewrite app_assoc. reflexivity. }
    { apply fits_snoc; auto. }
    { intros x Hx. apply D. right. exact Hx. }
    destruct I1.
  - (* scope, open *)
    destruct (mem s w0) eqn:M; [discriminate|]. exfalso. apply in_app_or in H. destruct H as [H|H].
    + apply (D s); [left; reflexivity|exact H].
    + apply (mem_false _ _ M H).
  - (* seq *)
    destruct (an p w0) as [q1|] eqn:Q1; [|discriminate].
    destruct (an q (r_end q1)) as [q2|] eqn:Q2; [|discriminate]. injection A as <-.
    destruct (IHX1 a0 w0) with (r := q1) as [I1 [I2 I3]]; auto.
    { intros s Hs. apply D. apply in_or_app. left. exact Hs. }
    destruct I1 as [-> I1].
    destruct (IHX2 a0 (r_end q1)) with (r := q2) as [J1 [J2 J3]]; auto.
    { intros s Hs. apply D. apply in_or_app. right. exact Hs. }
    split; [|split].
    + destruct o; cbn [ends] in J1 |- *.
      * exact J1.
      * destruct J1 as [v [V1 [V2 V3]]]. exists v. split; [exact V1|]. split; [|exact V3].
        apply join_throw. right. exact V2.
      * exact J1.
    + apply works_app; [apply (works_incl _ _ _ _ I2)|apply (works_incl _ _ _ _ J2)];
        intros; apply join_work; auto.
    + intro s. rewrite began_app, ended_app. specialize (I3 s). specialize (J3 s). lia.
  - (* seq, stop *)
    destruct (an p w0) as [q1|] eqn:Q1; [|discriminate].
    destruct (an q (r_end q1)) as [q2|] eqn:Q2; [|discriminate]. injection A as <-.
    destruct (IHX a0 w0) with (r := q1) as [I1 [I2 I3]]; auto.
    { intros s Hs. apply D. apply in_or_app. left. exact Hs. }
    split; [|split; [|exact I3]].
    + destruct o; [congruence| |exact I1].
      destruct I1 as [v [V1 [V2 V3]]]. exists v. split; [exact V1|]. split; [|exact V3].
      apply join_throw. left. exact V2.
    + apply (works_incl _ _ _ _ I2). intros; apply join_work; auto.
  - (* choice *)
    destruct (an p w0) as [q1|] eqn:Q1; [|discriminate].
    destruct (an q w0) as [q2|] eqn:Q2; [|discriminate].
    destruct (leqb (r_end q1) (r_end q2)) eqn:L; [|discriminate]. apply leqb_eq in L. injection A as <-.
    destruct (IHX a0 w0) with (r := q1) as [I1 [I2 I3]]; auto.
    { intros s Hs. apply D. apply in_or_app. left. exact Hs. }
    split; [|split; [|exact I3]].
    + destruct o; [cbn in I1 |- *; rewrite <- L; exact I1| |exact I1].
      destruct I1 as [v [V1 [V2 V3]]]. exists v. split; [exact V1|]. split; [|exact V3].
      apply join_throw. left. exact V2.
    + apply (works_incl _ _ _ _ I2). intros; apply join_work; auto.
  - destruct (an p w0) as [q1|] eqn:Q1; [|discriminate].
    destruct (an q w0) as [q2|] eqn:Q2; [|discriminate].
    destruct (leqb (r_end q1) (r_end q2)) eqn:L; [|discriminate]. injection A as <-.
    destruct (IHX a0 w0) with (r := q2) as [I1 [I2 I3]]; auto.
    { intros s Hs. apply D. apply in_or_app. right. exact Hs. }
    split; [|split; [|exact I3]].
    + destruct o; [exact I1| |exact I1].
      destruct I1 as [v [V1 [V2 V3]]]. exists v. split; [exact V1|]. split; [|exact V3].
      apply join_throw. right. exact V2.
    + apply (works_incl _ _ _ _ I2). intros; apply join_work; auto.
  - (* loop *)
    destruct (an p w0) as [q1|] eqn:Q1; [|discriminate].
    destruct (leqb (r_end q1) w0) eqn:L; [|discriminate]. apply leqb_eq in L. injection A as <-.
    split; [split; [rewrite L; reflexivity|rewrite L; exact F]|].
    split; [intros l z []|intro s; reflexivity].
  - destruct (an p w0) as [q1|] eqn:Q1; [|discriminate].
    destruct (leqb (r_end q1) w0) eqn:L; [|discriminate]. apply leqb_eq in L. injection A as <-.
    destruct (IHX1 a0 w0) with (r := q1) as [I1 [I2 I3]]; auto.
    destruct I1 as [-> I1]. rewrite L in *.
    destruct (IHX2 a0 w0) with (r := q1) as [J1 [J2 J3]]; auto.
    { cbn [an]. rewrite Q1. rewrite (ltac:(rewrite L; clear; induction w0; cbn; [reflexivity|rewrite String.eqb_refl; assumption]) : leqb (r_end q1) w0 = true). reflexivity. }
    split; [exact J1|]. split; [apply works_app; auto|].
    intro s. rewrite began_app, ended_app. specialize (I3 s). specialize (J3 s). lia.
  - destruct (an p w0) as [q1|] eqn:Q1; [|discriminate].
    destruct (leqb (r_end q1) w0) eqn:L; [|discriminate]. apply leqb_eq in L. injection A as <-.
    destruct (IHX a0 w0) with (r := q1) as [I1 [I2 I3]]; auto.
  - (* try *)
    destruct (an p w0) as [q1|] eqn:Q1; [|discriminate].
    destruct (handlers (an h) e (r_end q1) (r_throw q1)) as [k|] eqn:K; [|discriminate]. injection A as <-.
    destruct (IHX a0 w0) with (r := q1) as [I1 [I2 I3]]; auto.
    { intros s Hs. apply D. apply in_or_app. left. exact Hs. }
    split; [|split; [|exact I3]].
    + destruct o as [|e'|]; [exact I1| |exact I1].
      destruct I1 as [v [V1 [V2 V3]]]. exists v. split; [exact V1|]. split; [|exact V3].
      cbn. rewrite nodup_In, in_app_iff. left. apply filter_In. split; [exact V2|]. cbn.
      destruct (exc_eqb e' e) eqn:Ee; [|reflexivity]. apply exc_eqb_eq in Ee. congruence.
    + apply (works_incl _ _ _ _ I2). intros c Hc. cbn. rewrite nodup_In, in_app_iff. auto.
  - (* catch *)
    destruct (an p w0) as [q1|] eqn:Q1; [|discriminate].
    destruct (handlers (an h) e (r_end q1) (r_throw q1)) as [k|] eqn:K; [|discriminate]. injection A as <-.
    destruct (handlers_spec _ _ _ _ _ K) as [K1 K2].
    destruct (IHX1 a0 w0) with (r := q1) as [I1 [I2 I3]]; auto.
    { intros s Hs. apply D. apply in_or_app. left. exact Hs. }
    destruct I1 as [v [-> [V2 V3]]].
    destruct (K2 _ V2) as [q2 [Q2 [R1 [R2 R3]]]].
    destruct (IHX2 a0 v) with (r := q2) as [J1 [J2 J3]]; auto.
    { intros s Hs. apply D. apply in_or_app. right. exact Hs. }
    split; [|split].
    + destruct o; cbn [ends r_end] in J1 |- *; [rewrite <- R1; exact J1| |exact J1].
      destruct J1 as [u' [U1 [U2 U3]]]. exists u'. split; [exact U1|]. split; [|exact U3].
      cbn. rewrite nodup_In, in_app_iff. right. auto.
    + apply works_app; [apply (works_incl _ _ _ _ I2)|apply (works_incl _ _ _ _ J2)];
        intros c' Hc; cbn; rewrite nodup_In, in_app_iff; auto.
    + intro s. rewrite began_app, ended_app. specialize (I3 s). specialize (J3 s). lia.
Qed.

(** ** The library calls *)
Definition subset (l m : list string) : bool := forallb (fun s => mem s m) l.
Lemma subset_spec : forall l m, subset l m = true -> forall s, In s l -> In s m.
Proof.
  intros l m H s Hs. unfold subset in H. rewrite forallb_forall in H.
  apply mem_spec, H, Hs.
Qed.

(** a booked work item is done while its section is the one opened last *)
Definition in_place (x : string * list string) : bool :=
  forallb (fun r => negb (String.eqb (fst r) (fst x)) ||
                    (negb (leqb (snd x) []) && mem (last (snd x) "") (snd r))) booked.

Definition checked (p : prog) : bool :=
  subset (names p) library_sections &&
  match an p [] with
  | Some r => leqb (r_end r) [] &&
              forallb (fun x => subset (snd x) manual_sections) (r_throw r) &&
              forallb in_place (r_work r)
  | None => false
  end.

Lemma api_checked : forall p, api p -> checked p = true.
Proof. intros p A. destruct A; try (destruct b); vm_compute; reflexivity. Qed.

Lemma foreign_names : forall p a, subset (names p) library_sections = true -> foreign a ->
  forall s, In s (names p) -> ~ In s a.
Proof. intros p a H F s Hs K. exact (F s K (subset_spec _ _ H s Hs)). Qed.

Lemma fits_nil : forall a, fits a [].
Proof. intro a. split; [constructor|intros s []]. Qed.

Lemma sound0 : forall p a t o b, checked p = true -> foreign a -> exec p a t o b ->
  exists r, an p [] = Some r /\ r_end r = [] /\ ends a r o b /\ works a r t /\ balance a t b.
Proof.
  intros p a t o b C F X. unfold checked in C. apply andb_prop in C. destruct C as [C1 C2].
  destruct (an p []) as [r|] eqn:A; [|discriminate]. exists r.
  apply andb_prop in C2. destruct C2 as [C2 C3]. apply andb_prop in C2. destruct C2 as [C2 C4].
  split; [reflexivity|]. split; [apply leqb_eq, C2|].
  apply (an_sound _ _ _ _ _ X a []); auto using fits_nil.
  - rewrite app_nil_r. reflexivity.
  - apply foreign_names; assumption.
Qed.

(** ** C120 *)

(** No library call ever opens a section that is open already, nor closes one
    that is not: a debug build is never aborted. *)
Theorem C120_no_abort : forall p a t o b, api p -> foreign a ->
  exec p a t o b -> o <> Aborted.
Proof.
  intros p a t o b A F X ->. destruct (sound0 _ _ _ _ _ (api_checked _ A) F X) as [r [_ [_ [E _]]]].
  exact E.
Qed.

(** A call that returns leaves the open sections as it found them, and has
    closed every section as often as it has opened it. *)
Theorem C120_balanced_partial : forall p a t b, api p -> foreign a ->
  exec p a t Done b -> b = a /\ forall s, began s t = ended s t.
Proof.
  intros p a t b A F X. destruct (sound0 _ _ _ _ _ (api_checked _ A) F X) as [r [_ [R [E [_ B]]]]].
  destruct E as [E _]. rewrite R, app_nil_r in E. split; [exact E|].
  subst b. intro s. specialize (B s). lia.
Qed.

(** A call that ends with an exception closes all of its scoped sections: what
    stays open is on top of what was open, and was opened by hand. *)
Theorem C120_exceptions : forall p a t e b, api p -> foreign a ->
  exec p a t (Thrown e) b ->
  exists v, b = a ++ v /\ forall s, In s v -> In s manual_sections.
Proof.
  intros p a t e b A F X. pose proof (api_checked _ A) as C.
  destruct (sound0 _ _ _ _ _ C F X) as [r [Ar [_ [E _]]]].
  destruct E as [v [-> [V _]]]. exists v. split; [reflexivity|].
  unfold checked in C. rewrite Ar in C.
  apply andb_prop in C. destruct C as [_ C]. apply andb_prop in C. destruct C as [C _].
  apply andb_prop in C. destruct C as [_ C]. rewrite forallb_forall in C.
  exact (subset_spec _ _ (C _ V)).
Qed.

(** The failure of the nonlinear iteration never leaves a time step, and a
    nonlinear solve that reports it has closed its sections. *)
Definition time_steps : list prog :=
  [ns_evaluate_time_step; ns_advance_time_step; ls_advance_time_step okz;
   ls_advance_time_step okz_matrix; pf_advance_time_step; sharp_advance_time_step].
Definition no_escape (p : prog) : bool :=
  match an p [] with
  | Some r => forallb (fun x => negb (exc_eqb (fst x) NonlinearNoConvergence)) (r_throw r)
  | None => false end.
Theorem C120_no_convergence : forall a t o b, foreign a ->
  (forall p, In p time_steps -> exec p a t o b -> o <> Thrown NonlinearNoConvergence) /\
  (exec ns_solve_nonlinear_system a t (Thrown NonlinearNoConvergence) b -> b = a).
Proof.
  intros a t o b F. split.
  - intros p P X ->.
    assert (C : checked p = true /\ no_escape p = true).
    { unfold time_steps in P. cbn [In] in P.
      repeat (destruct P as [P|P]; [subst p; vm_compute; split; reflexivity|]). destruct P. }
    destruct C as [C N].
    destruct (sound0 _ _ _ _ _ C F X) as [r [Ar [_ [[v [_ [V _]]] _]]]].
    unfold no_escape in N. rewrite Ar in N. rewrite forallb_forall in N. specialize (N _ V).
    discriminate N.
  - intro X. destruct (sound0 _ _ _ _ _ (api_checked _ api_ns_nonlinear) F X) as [r [Ar [_ [E _]]]].
    destruct E as [v [-> [V _]]]. vm_compute in Ar. injection Ar as <-. cbn in V.
    repeat (destruct V as [V|V]; [first [discriminate V|injection V as <-; apply app_nil_r]|]).
    destruct V.
Qed.

(** The listed work is done while the section it is booked to is the one opened
    last, whatever call it is part of. *)
Theorem C120_booking : forall p a t o b what where_ z, api p -> foreign a ->
  exec p a t o b -> In (what, where_) booked -> In (Did what z) t ->
  exists y s, z = y ++ [s] /\ In s where_.
Proof.
  intros p a t o b what where_ z A F X W Z. pose proof (api_checked _ A) as C.
  destruct (sound0 _ _ _ _ _ C F X) as [r [Ar [_ [_ [K _]]]]].
  destruct (K _ _ Z) as [v [-> V]].
  unfold checked in C. rewrite Ar in C. apply andb_prop in C. destruct C as [_ C].
  apply andb_prop in C. destruct C as [_ C]. rewrite forallb_forall in C.
  specialize (C _ V). unfold in_place in C. rewrite forallb_forall in C. specialize (C _ W).
  cbn [fst snd] in C. rewrite String.eqb_refl in C. cbn [negb orb] in C.
  apply andb_prop in C. destruct C as [C1 C2].
  assert (N : v <> []) by (intros ->; discriminate C1).
  rewrite (app_removelast_last "" N). exists (a ++ removelast v), (last v "").
  split; [apply app_assoc|]. apply mem_spec, C2.
Qed.

(** Over a whole session of calls that return, with sections of the user's own
    around them, the open sections are those of the user's own bookkeeping. *)
Theorem C120_session : forall l a t o b, (forall x, In x l -> proper x) -> foreign a ->
  own l a <> None -> NoDup a -> exec (whole l) a t o b ->
  o <> Aborted /\ (o = Done -> own l a = Some b).
Proof.
  induction l as [|x l IH]; intros a t o b P F O N X.
  - inversion X; subst. split; [discriminate|reflexivity].
  - assert (Pl : forall y, In y l -> proper y) by (intros y Hy; apply P; right; exact Hy).
    assert (Px : proper x) by (apply P; left; reflexivity).
    cbn [whole] in X.
    destruct x as [s| |p]; cbn [step_prog proper own] in *.
    + destruct (existsb (String.eqb s) a) eqn:M; [congruence|].
      apply mem_false in M.
      inversion X as [| | | | | | | | | | | |? ? ? ? c ? ? ? X1 X2|? ? ? ? ? ? X1 Nd| | | | | | |]; subst.
      * inversion X1; subst. refine (IH _ _ _ _ Pl _ O _ X2).
        -- intros y Hy. apply in_app_or in Hy. destruct Hy as [Hy|[<-|[]]]; [auto|exact Px].
        -- apply (proj1 (fits_snoc [] a s (conj N (fun _ _ H => H)) M (fun H => H))).
      * inversion X1; subst; [congruence|contradiction].
    + destruct a as [|a0 a]; [congruence|]. set (w := a0 :: a) in *.
      assert (Nw : w <> []) by (unfold w; discriminate). clearbody w.
      destruct (exists_last Nw) as [w' [s ->]]. rewrite removelast_last in *.
      destruct (fits_init [] w' s (conj N (fun _ _ H => H))) as [[N1 _] [N2 _]].
      inversion X as [| | | | | | | | | | | |? ? ? ? c ? ? ? X1 X2|? ? ? ? ? ? X1 Nd| | | | | | |]; subst.
      * inversion X1 as [| | | | | | |a1 s1 E1| | | | | | | | | | | | |]; subst.
        match goal with E : _ ++ [_] = _ ++ [_] |- _ => apply app_inj_tail in E; destruct E; subst end.
        rewrite close_last in X2 by exact N2. refine (IH _ _ _ _ Pl _ O N1 X2).
        intros y Hy. apply F. apply in_or_app. left. exact Hy.
      * inversion X1; subst; [congruence|].
        match goal with E : [] = _ ++ [_] |- _ => destruct w'; discriminate E end.
    + inversion X as [| | | | | | | | | | | |? ? ? ? c ? ? ? X1 X2|? ? ? ? ? ? X1 Nd| | | | | | |]; subst.
      * destruct (C120_balanced_partial _ _ _ _ Px F X1) as [-> _].
        exact (IH _ _ _ _ Pl F O N X2).
      * split; [exact (C120_no_abort _ _ _ _ _ Px F X1)|congruence].
Qed.

(** ** Two of the programs that come with the library *)
Definition program_sections : list string :=
  ["Setup grid and initial condition."; "Output solution."].

Lemma repeated_balanced : forall n p, (exists r, an p [] = Some r /\ r_end r = []) ->
  exists r, an (repeated n p) [] = Some r /\ r_end r = [].
Proof.
  induction n as [|n IH]; intros p H; [eexists; split; reflexivity|].
  destruct H as [r [A E]]. destruct (IH p (ex_intro _ r (conj A E))) as [q [B G]].
  cbn [repeated an]. rewrite A, E, B. eexists. split; [reflexivity|exact G].
Qed.

Lemma an_then : forall p q w v, (exists r, an p w = Some r /\ r_end r = v) ->
  (exists r, an q v = Some r /\ r_end r = []) -> exists r, an (p ;; q) w = Some r /\ r_end r = [].
Proof.
  intros p q w v [r [A E]] [k [B G]]. cbn [an]. rewrite A, E, B. eexists. split; [reflexivity|exact G].
Qed.

Lemma from_empty : forall p r t o b, an p [] = Some r -> r_end r = [] -> exec p [] t o b ->
  o <> Aborted /\ (o = Done -> b = [] /\ forall s, began s t = ended s t).
Proof.
  intros p r t o b A E X.
  destruct (an_sound _ _ _ _ _ X [] [] eq_refl (fits_nil _) (fun s _ H => H) r A) as [I [_ B]].
  split; [intros ->; exact I|]. intros ->. destruct I as [-> _]. rewrite E in *.
  split; [reflexivity|]. intro s. specialize (B s). cbn in B. lia.
Qed.

(** On the first process the driven cavity program leaves every section closed,
    for any number of adaptive refinements; so does the periodic channel. *)
Theorem C120_programs : forall n t o b,
  (exec (cavity_run 0 n) [] t o b ->
     o <> Aborted /\ (o = Done -> b = [] /\ forall s, began s t = ended s t)) /\
  (exec channel_run [] t o b ->
     o <> Aborted /\ (o = Done -> b = [] /\ forall s, began s t = ended s t)).
Proof.
  intros n t o b. split.
  - destruct (repeated_balanced (S n) (cavity_pass 0)) as [q [B G]].
    { eexists. split; vm_compute; reflexivity. }
    assert (A : exists r, an (cavity_run 0 n) [] = Some r /\ r_end r = []).
    { unfold cavity_run. set (R := repeated (S n) (cavity_pass 0)) in *. clearbody R.
      set (g := "Setup grid and initial condition.").
      apply (an_then _ _ _ [g]); [eexists; split; vm_compute; reflexivity|].
      apply (an_then _ _ _ [g]); [eexists; split; vm_compute; reflexivity|].
      apply (an_then _ _ _ [g]); [eexists; split; vm_compute; reflexivity|].
      apply (an_then _ _ _ [g]); [eexists; split; vm_compute; reflexivity|].
      apply (an_then _ _ _ []); [eexists; split; vm_compute; reflexivity|].
      exists q. auto. }
    destruct A as [r [A E]]. intro X. exact (from_empty _ _ _ _ _ A E X).
  - intro X. destruct (an channel_run []) as [r|] eqn:A; [|vm_compute in A; discriminate A].
    assert (E : r_end r = []) by (vm_compute in A; injection A as <-; reflexivity).
    exact (from_empty _ _ _ _ _ A E X).
Qed.

(** ** Where the property fails *)

(** The checks of the boundary conditions raise their error with the section
    "NS setup matrix and vectors." open; it stays open, and in a debug build
    every later set-up - also with corrected conditions - is aborted. *)
Theorem C120_violation_retry : forall a, foreign a ->
  exists t, exec (ns_initialize_data_structures false) a t (Thrown OtherError)
              (a ++ ["NS setup matrix and vectors."]) /\
    forall t' o b, exec (ns_initialize_data_structures false)
                        (a ++ ["NS setup matrix and vectors."]) t' o b -> o = Aborted.
Proof.
  intros a F. set (s := "NS setup matrix and vectors.").
  assert (N : ~ In s a).
  { intro H. apply (F s H). apply in_or_app. left. unfold s. cbn. tauto. }
  eexists. split.
  - unfold ns_initialize_data_structures. cbn beta iota.
    eapply x_seq; [apply x_enter; exact N|].
    eapply x_seq; [apply x_work|].
    apply x_seq_stop; [|discriminate]. apply x_right. apply x_raise.
  - intros t' o b X. unfold ns_initialize_data_structures in X. cbn beta iota in X.
    inversion X as [| | | | | | | | | | | |? ? ? ? c ? ? ? X1 X2|? ? ? ? ? ? X1 Nd| | | | | | |]; subst.
    + inversion X1; subst. exfalso. match goal with H : ~ In _ _ |- _ => apply H end.
      apply in_or_app. right. left. reflexivity.
    + inversion X1; subst; [congruence|reflexivity].
Qed.

(** The initial Stokes solve of the two-phase set-up may fail to converge; the
    exception is not caught, and the section of the set-up stays open. *)
Theorem C120_violation_setup : forall a, foreign a ->
  exists t, exec pf_setup_problem a t (Thrown NonlinearNoConvergence)
              (a ++ ["TP setup problem."]).
Proof.
  intros a F.
  assert (N : forall s, mem s library_sections = true -> ~ In s a).
  { intros s M H. apply mem_spec in M. exact (F s H M). }
  assert (K : forall s x, mem s library_sections = true -> s <> x -> ~ In s (a ++ [x])).
  { intros s x M D H. apply in_app_or in H. destruct H as [H|[H|[]]]; [exact (N s M H)|congruence]. }
  assert (sec : forall s w c, ~ In s c ->
    exec (Enter s ;; Work w ;; Leave) c ([Began s] ++ [Did w (c ++ [s])] ++ [Ended s]) Done c).
  { intros s w c H. eapply x_seq; [apply x_enter; exact H|]. eapply x_seq; [apply x_work|].
    pose proof (x_leave c s) as L. rewrite close_last in L by exact H. exact L. }
  set (T := "TP setup problem.").
  eexists. unfold pf_setup_problem, tp_setup_problem.
  eapply x_seq; [apply x_enter; apply N; reflexivity|].
  eapply x_seq; [apply x_work|].
  eapply x_seq.
  { unfold tp_distribute_dofs, ns_distribute_dofs. eapply x_seq; [|apply x_work].
    apply sec. apply K; [reflexivity|discriminate]. }
  eapply x_seq.
  { unfold tp_initialize_data_structures, ns_initialize_data_structures.
    eapply x_seq.
    - assert (H : ~ In "NS setup matrix and vectors." (a ++ [T])) by (apply K; [reflexivity|discriminate]).
      eapply x_seq; [apply x_enter; exact H|].
      eapply x_seq; [apply x_work|]. eapply x_seq; [apply x_left, x_skip|].
      eapply x_seq; [apply x_work|]. eapply x_seq; [apply x_work|].
      pose proof (x_leave (a ++ [T]) "NS setup matrix and vectors.") as L.
      rewrite close_last in L by exact H. exact L.
    - eapply x_seq; [apply x_work|]. eapply x_seq; [apply x_work|]. apply x_work. }
  eapply x_seq; [apply x_work|].
  eapply x_seq; [apply x_loop_end|].
  apply x_seq_stop; [|discriminate]. apply x_right.
  eapply x_seq; [apply x_work|]. apply x_right.
  eapply x_seq.
  { unfold ns_compute_initial_residual, ns_compute_residual.
    assert (H : ~ In "NS assemble nonlinear residual." (a ++ [T])) by (apply K; [reflexivity|discriminate]).
    pose proof (x_scope "NS assemble nonlinear residual." (Work "residual") (a ++ [T]) _ Done _ H
                  (x_work _ _) ltac:(discriminate)) as L.
    rewrite close_last in L by exact H. exact L. }
  unfold ns_solve_nonlinear_system.
  eapply x_seq; [apply x_loop_end|].
  eapply x_seq; [apply x_left, x_skip|].
  eapply x_seq; [apply x_left, x_skip|].
  apply x_right, x_raise.
Qed.

(** The time of fixing the pressure constant is never booked to the boundary
    conditions: the scope object meant for it is destroyed at once. *)
Theorem C120_violation_pressure_fix : forall a t o b z, foreign a ->
  exec ns_advance_time_step a t o b -> In (Did "pressure fix" z) t -> z = a.
Proof.
  intros a t o b z F X Z.
  destruct (sound0 _ _ _ _ _ (api_checked _ api_ns_advance) F X) as [r [Ar [_ [_ [K _]]]]].
  destruct (K _ _ Z) as [v [-> V]].
  assert (H : forallb (fun x => negb (String.eqb (fst x) "pressure fix") || leqb (snd x) []) (r_work r) = true).
  { vm_compute in Ar. injection Ar as <-. vm_compute. reflexivity. }
  rewrite forallb_forall in H. specialize (H _ V). cbn in H. apply leqb_eq in H. subst v.
  apply app_nil_r.
Qed.

(** The boundary values of the initial Stokes solve are computed outside of the
    section for boundary values. *)
Theorem C120_violation_stokes_boundary : forall a t o b z, foreign a ->
  exec ns_compute_initial_stokes_field a t o b -> In (Did "boundary values" z) t -> z = a.
Proof.
  intros a t o b z F X Z.
  destruct (sound0 _ _ _ _ _ (api_checked _ api_ns_stokes) F X) as [r [Ar [_ [_ [K _]]]]].
  destruct (K _ _ Z) as [v [-> V]].
  assert (H : forallb (fun x => negb (String.eqb (fst x) "boundary values") || leqb (snd x) []) (r_work r) = true).
  { vm_compute in Ar. injection Ar as <-. vm_compute. reflexivity. }
  rewrite forallb_forall in H. specialize (H _ V). cbn in H. apply leqb_eq in H. subst v.
  apply app_nil_r.
Qed.

(** one execution of a program: the loops are left at once *)
Fixpoint go (p : prog) (c : list string) : option (list event * list string) :=
  match p with
  | Skip => Some ([], c)
  | Work l => Some ([Did l c], c)
  | Raise _ => None
  | Enter s => if mem s c then None else Some ([Began s], c ++ [s])
  | Leave => match c with
             | [] => None
             | _ => Some ([Ended (last c "")], close (last c "") c) end
  | Scope s p => if mem s c then None else
                 match go p (c ++ [s]) with
                 | Some (t, b) => Some (Began s :: t ++ [Ended s], close s b)
                 | None => None end
  | Seq p q => match go p c with
               | Some (t, b) => match go q b with
                                | Some (u, d) => Some (t ++ u, d) | None => None end
               | None => None end
  | Choice p q => match go p c with Some x => Some x | None => go q c end
  | Loop p => Some ([], c)
  | Try p _ _ => go p c
  end.
Lemma go_exec : forall p c t b, go p c = Some (t, b) -> exec p c t Done b.
Proof.
  induction p as [|w|e|s| |s p IH|p IH q IHq|p IH q IHq|p IH|p IH e h IHh]; intros c t b G; cbn in G.
  - injection G as <- <-. constructor.
  - injection G as <- <-. constructor.
  - discriminate.
  - destruct (mem s c) eqn:M; [discriminate|]. injection G as <- <-. constructor. apply mem_false, M.
  - destruct c as [|x c]; [discriminate|]. set (w := x :: c) in *.
    assert (G' : t = [Ended (last w "")] /\ b = close (last w "") w) by (unfold w in *; split; congruence).
    destruct G' as [-> ->].
    assert (N : w <> []) by (unfold w; discriminate). clearbody w.
    destruct (exists_last N) as [w' [s ->]]. rewrite last_last. apply x_leave.
  - destruct (mem s c) eqn:M; [discriminate|].
    destruct (go p (c ++ [s])) as [[t0 b0]|] eqn:E; [|discriminate]. injection G as <- <-.
    apply x_scope; [apply mem_false, M|apply IH, E|discriminate].
  - destruct (go p c) as [[t0 b0]|] eqn:E; [|discriminate].
    destruct (go q b0) as [[u d]|] eqn:E'; [|discriminate]. injection G as <- <-.
    eapply x_seq; [apply IH, E|apply IHq, E'].
  - destruct (go p c) as [x|] eqn:E.
    + injection G as ->. apply x_left, IH, E.
    + apply x_right, IHq, G.
  - injection G as <- <-. constructor.
  - apply x_try; [apply IH, G|discriminate].
Qed.

(** In the driven cavity program every process but the first returns from its
    output routine with the section "Output solution." open: with at least one
    adaptive refinement no run ends normally in a debug build, and after the
    first output the second one is aborted. *)
Lemma seq_done : forall p q c t b, exec (p ;; q) c t Done b ->
  exists u v d, exec p c u Done d /\ exec q d v Done b.
Proof.
  intros p q c t b X.
  inversion X as [| | | | | | | | | | | |? ? ? ? e ? ? ? X1 X2|? ? ? ? ? ? X1 Nd| | | | | | |]; subst.
  - eauto.
  - congruence.
Qed.
Lemma ends_at : forall p a t b r, exec p a t Done b -> an p [] = Some r ->
  (forall s, In s (names p) -> ~ In s a) -> b = a ++ r_end r.
Proof.
  intros p a t b r X A N.
  destruct (an_sound _ _ _ _ _ X a [] (eq_sym (app_nil_r a)) (fits_nil a) N r A) as [[E _] _]. exact E.
Qed.
Lemma leave_single : forall s t d, exec Leave [s] t Done d -> d = [].
Proof.
  intros s t d X. remember Leave as p. remember [s] as c. remember Done as o.
  destruct X; try discriminate. change [s] with ([] ++ [s]) in Heqc.
  apply app_inj_tail in Heqc. destruct Heqc as [-> ->]. cbn. rewrite String.eqb_refl. reflexivity.
Qed.
Lemma names_apart : forall p a, forallb (fun s => negb (mem s a)) (names p) = true ->
  forall s, In s (names p) -> ~ In s a.
Proof.
  intros p a H s Hs K. rewrite forallb_forall in H. specialize (H s Hs).
  apply mem_spec in K. rewrite K in H. discriminate H.
Qed.

Theorem C120_violation_cavity : forall r n,
  (forall t o b, exec (cavity_run (S r) (S n)) [] t o b -> o <> Done) /\
  exists t b, exec (cavity_run (S r) (S n)) [] t Aborted b.
Proof.
  intros r n. split.
  - intros t o b X ->. unfold cavity_run in X. cbn [repeated] in X.
    set (P := cavity_pass (S r)) in *. set (R := repeated n P) in *.
    do 5 (apply seq_done in X; destruct X as [? [? [? [? X]]]]).
    apply seq_done in X. destruct X as [? [? [m [X1 X]]]].
    apply seq_done in X. destruct X as [? [? [k [X2 _]]]].
    repeat match goal with
    | H : exec (Enter _) [] _ Done _ |- _ => inversion H; subst; clear H
    | H : exec (Work _) _ _ Done _ |- _ => inversion H; subst; clear H
    | H : exec (Choice Skip (Raise _)) _ _ Done _ |- _ => inversion H; subst; clear H
    | H : exec Skip _ _ Done _ |- _ => inversion H; subst; clear H
    | H : exec (Raise _) _ _ Done _ |- _ => inversion H
    end.
    match goal with
    | H : exec ns_distribute_dofs _ _ Done _ |- _ =>
        eapply ends_at in H; [|vm_compute; reflexivity|apply names_apart; vm_compute; reflexivity]
    end. subst.
    match goal with H : exec Leave _ _ Done _ |- _ => apply leave_single in H; subst end.
    eapply (ends_at P []) in X1; [|vm_compute; reflexivity|intros s _ []]. cbn in X1. subst m.
    unfold P, cavity_pass in X2.
    apply seq_done in X2. destruct X2 as [? [? [m1 [Y1 X2]]]].
    apply seq_done in X2. destruct X2 as [? [? [m2 [Y2 X2]]]].
    apply seq_done in X2. destruct X2 as [? [? [m3 [Y3 X2]]]].
    apply seq_done in X2. destruct X2 as [? [? [m4 [Y4 _]]]].
    eapply ends_at in Y1; [|vm_compute; reflexivity|apply names_apart; vm_compute; reflexivity].
    cbn in Y1. subst m1.
    eapply ends_at in Y2; [|vm_compute; reflexivity|apply names_apart; vm_compute; reflexivity].
    cbn in Y2. subst m2.
    eapply ends_at in Y3; [|vm_compute; reflexivity|apply names_apart; vm_compute; reflexivity].
    cbn in Y3. subst m3.
    apply seq_done in Y4. destruct Y4 as [? [? [m5 [Z1 _]]]].
    inversion Z1; subst. match goal with H : ~ In _ _ |- _ => apply H; left; reflexivity end.
  - eexists. eexists. unfold cavity_run. cbn [repeated].
    eapply x_seq; [eapply go_exec; vm_compute; reflexivity|].
    eapply x_seq; [eapply go_exec; vm_compute; reflexivity|].
    eapply x_seq; [eapply go_exec; vm_compute; reflexivity|].
    eapply x_seq; [eapply go_exec; vm_compute; reflexivity|].
    eapply x_seq; [eapply go_exec; vm_compute; reflexivity|].
    eapply x_seq; [eapply go_exec; vm_compute; reflexivity|].
    apply x_seq_stop; [|discriminate]. unfold cavity_pass.
    eapply x_seq; [eapply go_exec; vm_compute; reflexivity|].
    eapply x_seq; [eapply go_exec; vm_compute; reflexivity|].
    eapply x_seq; [eapply go_exec; vm_compute; reflexivity|].
    apply x_seq_stop; [|discriminate]. unfold cavity_output_results.
    apply x_seq_stop; [|discriminate]. apply x_enter_open. left. reflexivity.
Qed.

(** ** The hypotheses can be met *)

(** every call has an execution that returns, also inside a user's section *)
Example C120_nonvacuous : foreign ["my section"] /\
  forall p, api p -> exists t, exec p ["my section"] t Done ["my section"].
Proof.
  split.
  - intros s [<-|[]] H. apply mem_spec in H. discriminate H.
  - intros p A. destruct A; try (destruct b);
      (eexists; eapply go_exec; vm_compute; reflexivity).
Qed.

(** a time step in which the iteration is started, the pressure is fixed and
    the iteration fails is one that returns, with all sections closed *)
Example C120_nonvacuous_failed_step : exists t,
  exec ns_advance_time_step [] t Done [] /\
  In (Did "pressure fix" []) t /\ In (Did "linear solve" ["NS solve system."]) t /\
  began "NS solve system." t = 1.
Proof.
  eexists. split; [|split; [|split]].
  - unfold ns_advance_time_step, ns_evaluate_time_step.
    eapply x_seq; [eapply go_exec; vm_compute; reflexivity|].
    eapply x_seq; [eapply go_exec; vm_compute; reflexivity|].
    eapply x_catch; [|apply x_skip]. unfold ns_solve_nonlinear_system.
    eapply x_seq; [eapply x_loop; [|apply x_loop_end]|].
    + eapply x_seq; [apply x_left, x_skip|].
      eapply x_seq; [apply x_right; eapply go_exec; vm_compute; reflexivity|apply x_left, x_skip].
    + eapply x_seq; [apply x_right; eapply go_exec; vm_compute; reflexivity|].
      eapply x_seq; [apply x_left, x_skip|]. apply x_right, x_raise.
  - cbn. tauto.
  - cbn. tauto.
  - reflexivity.
Qed.

(** a session with sections of the user's own *)
Example C120_nonvacuous_session :
  let l := [Open "Setup"; Call ns_setup_problem; CloseLast;
            Call ns_advance_time_step; Open "Output"; Call ns_output_solution; CloseLast] in
  (forall x, In x l -> proper x) /\ own l [] = Some [] /\ exists t, exec (whole l) [] t Done [].
Proof.
  cbv zeta. split; [|split].
  - intros x H. cbn in H.
    destruct H as [<-|[<-|[<-|[<-|[<-|[<-|[<-|[]]]]]]]]; cbn [proper]; try exact I; try constructor;
      (intro H; apply mem_spec in H; discriminate H).
  - reflexivity.
  - eexists. eapply go_exec. vm_compute. reflexivity.
Qed.

Print Assumptions C120_no_abort.
Print Assumptions C120_balanced_partial.
Print Assumptions C120_exceptions.
Print Assumptions C120_no_convergence.
Print Assumptions C120_booking.
Print Assumptions C120_session.
Print Assumptions C120_programs.
Print Assumptions C120_violation_retry.
Print Assumptions C120_violation_setup.
Print Assumptions C120_violation_pressure_fix.
Print Assumptions C120_violation_stokes_boundary.
Print Assumptions C120_violation_cavity.
Print Assumptions C120_nonvacuous.
Print Assumptions C120_nonvacuous_failed_step.
Print Assumptions C120_nonvacuous_session.
