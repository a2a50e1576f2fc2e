(** Base: numbers, exceptions, list utilities and the arithmetic tactics.
    Nothing here models repository code; it is the vocabulary of the model. *)
From Coq Require Export String.
From Coq Require Export List ZArith QArith Qcanon Lia Lqa Bool Arith Permutation.
From Coq Require Import ZifyBool ZifyNat.
Export ListNotations.
Open Scope Qc_scope.

(** * Python exceptions as values *)

(** [NonFinite] is not a Python exception: it marks the point where the real code carries on with
    a NaN or an infinity that the model does not track any further (e.g. a division by zero, which
    numpy only warns about). *)
Inductive exn :=
| AssertionError | IndexError | ValueError | TypeError | KeyError | AttributeError
| UnboundLocalError | ZeroDivisionError | RecursionError | NonFinite.

Inductive res (A : Type) := Ok (a : A) | Raise (e : exn).
Arguments Ok {A} a. Arguments Raise {A} e.

Definition bind {A B} (m : res A) (f : A -> res B) : res B :=
  match m with Ok a => f a | Raise e => Raise e end.
Notation "x <- m ;; k" := (bind m (fun x => k))
  (at level 61, m at next level, right associativity).
Notation "' p <- m ;; k" := (bind m (fun p => k))
  (at level 61, p pattern, m at next level, right associativity).

(** [assert b] : the Python statement [assert b]. *)
Definition assert_ (b : bool) : res unit := if b then Ok tt else Raise AssertionError.
Notation "'passert' b ;; k" := (bind (assert_ b) (fun _ => k)) (at level 61, right associativity).

Definition rmap {A B} (f : A -> B) (m : res A) : res B := x <- m ;; Ok (f x).

(** Left-to-right evaluation of a list of computations that may raise (list comprehension). *)
Fixpoint mapM {A B} (f : A -> res B) (l : list A) : res (list B) :=
  match l with
  | [] => Ok []
  | a :: l' => b <- f a ;; bs <- mapM f l' ;; Ok (b :: bs)
  end.

Lemma bind_ok {A B} (m : res A) (f : A -> res B) b :
  bind m f = Ok b <-> exists a, m = Ok a /\ f a = Ok b.
Proof. destruct m; simpl; split; intros H; [eauto| |discriminate|]; destruct H as (?&E&?); congruence. Qed.

Lemma mapM_ok {A B} (f : A -> res B) (g : A -> B) l :
  (forall a, In a l -> f a = Ok (g a)) -> mapM f l = Ok (map g l).
Proof.
  induction l as [|a l IH]; intros H; simpl; [reflexivity|].
  rewrite (H a) by now left. simpl. rewrite IH by (intros; apply H; now right). reflexivity.
Qed.

Lemma mapM_raise {A B} (f : A -> res B) l a e :
  In a l -> f a = Raise e -> (forall b, In b l -> match f b with Ok _ => True | Raise e' => e' = e end) ->
  mapM f l = Raise e.
Proof.
  induction l as [|b l IH]; intros Hin Hf Hall; [destruct Hin|]. simpl.
  destruct (f b) as [v|e'] eqn:Eb.
  - simpl. destruct Hin as [->|Hin]; [congruence|].
    rewrite IH; auto. intros c Hc; apply Hall; now right.
  - simpl. specialize (Hall b (or_introl eq_refl)). rewrite Eb in Hall. now subst.
Qed.

Lemma mapM_length {A B} (f : A -> res B) l l' : mapM f l = Ok l' -> length l' = length l.
Proof.
  revert l'; induction l as [|a l IH]; intros l' H; simpl in H.
  - now inversion H.
  - apply bind_ok in H as (b & _ & H). apply bind_ok in H as (bs & H1 & H2).
    inversion H2; subst; simpl. now rewrite (IH bs).
Qed.

(** * Numbers: canonical rationals *)

Definition EPS : Qc := Q2Qc (1 # 100000000).   (* helpers.py:6   EPS = 1e-8 *)
Definition BIG_M : Qc := Q2Qc 100000000.       (* helpers.py:5   BIG_M = 1e8 *)
Definition qz (z : Z) : Qc := Q2Qc (inject_Z z).
Definition qn (n : nat) : Qc := qz (Z.of_nat n).

Definition Qcleb (a b : Qc) : bool := Qle_bool (this a) (this b).
Definition Qcltb (a b : Qc) : bool := negb (Qle_bool (this b) (this a)).
Definition Qceqb (a b : Qc) : bool := Qeq_bool (this a) (this b).
Infix "<=?" := Qcleb : Qc_scope.
Infix "<?" := Qcltb : Qc_scope.
Infix "=?" := Qceqb : Qc_scope.

Lemma Qcleb_le a b : (a <=? b) = true <-> a <= b.
Proof. unfold Qcleb. apply Qle_bool_iff. Qed.
Lemma Qcltb_lt a b : (a <? b) = true <-> a < b.
Proof.
  unfold Qcltb. rewrite negb_true_iff. split; intros H.
  - unfold Qclt. destruct (Qlt_le_dec (this a) (this b)) as [L|L]; [exact L|].
    apply Qle_bool_iff in L. congruence.
  - destruct (Qle_bool (this b) (this a)) eqn:E; [|reflexivity].
    apply Qle_bool_iff in E. unfold Qclt in H. lra.
Qed.
Lemma Qceqb_eq a b : (a =? b) = true <-> a = b.
Proof.
  unfold Qceqb. rewrite Qeq_bool_iff. split; [apply Qc_is_canon | intros ->; reflexivity].
Qed.
Lemma Qcleb_gt a b : (a <=? b) = false <-> b < a.
Proof.
  rewrite <- not_true_iff_false, Qcleb_le. unfold Qcle, Qclt. split; intros; lra.
Qed.
Lemma Qcltb_ge a b : (a <? b) = false <-> b <= a.
Proof.
  rewrite <- not_true_iff_false, Qcltb_lt. unfold Qcle, Qclt. split; intros; lra.
Qed.
Lemma Qceqb_neq a b : (a =? b) = false <-> a <> b.
Proof. rewrite <- not_true_iff_false, Qceqb_eq. tauto. Qed.

Lemma Qcleb_spec a b : BoolSpec (a <= b) (b < a) (a <=? b).
Proof. destruct (a <=? b) eqn:E; constructor; [now apply Qcleb_le|now apply Qcleb_gt]. Qed.
Lemma Qcltb_spec a b : BoolSpec (a < b) (b <= a) (a <? b).
Proof. destruct (a <? b) eqn:E; constructor; [now apply Qcltb_lt|now apply Qcltb_ge]. Qed.
Lemma Qceqb_spec a b : BoolSpec (a = b) (a <> b) (a =? b).
Proof. destruct (a =? b) eqn:E; constructor; [now apply Qceqb_eq|now apply Qceqb_neq]. Qed.

(** ** Tactics: linear arithmetic over [Qc] *)

Lemma this_add a b : (this (a + b) == this a + this b)%Q. Proof. apply Qred_correct. Qed.
Lemma this_mul a b : (this (a * b) == this a * this b)%Q. Proof. apply Qred_correct. Qed.
Lemma this_opp a : (this (- a) == - this a)%Q. Proof. apply Qred_correct. Qed.
Lemma this_sub a b : (this (a - b) == this a - this b)%Q.
Proof. unfold Qcminus. rewrite this_add, this_opp. reflexivity. Qed.
Lemma this_inv a : (this (/ a) == / this a)%Q. Proof. apply Qred_correct. Qed.
Lemma this_Q2Qc q : (this (Q2Qc q) == q)%Q. Proof. apply Qred_correct. Qed.
Lemma this_div a b : (this (a / b) == this a * / this b)%Q.
Proof. unfold Qcdiv. rewrite this_mul, this_inv. reflexivity. Qed.
Lemma this_divc a c : (this (a / Q2Qc c) == this a * / c)%Q.
Proof. rewrite this_div, this_Q2Qc. reflexivity. Qed.
Lemma this_mulc a c : (this (a * Q2Qc c) == this a * c)%Q.
Proof. rewrite this_mul, this_Q2Qc. reflexivity. Qed.
Lemma this_cmul a c : (this (Q2Qc c * a) == c * this a)%Q.
Proof. rewrite this_mul, this_Q2Qc. reflexivity. Qed.
Lemma this_qz z : (this (qz z) == inject_Z z)%Q. Proof. apply this_Q2Qc. Qed.
Lemma this_qn n : (this (qn n) == inject_Z (Z.of_nat n))%Q. Proof. apply this_Q2Qc. Qed.
Lemma this_EPS : (this EPS == 1 # 100000000)%Q. Proof. apply this_Q2Qc. Qed.
Lemma this_BIGM : (this BIG_M == 100000000)%Q. Proof. apply this_Q2Qc. Qed.
Lemma qneq_this (a b : Qc) : a <> b -> ~ (this a == this b)%Q.
Proof. intros H E. apply H. now apply Qc_is_canon. Qed.

Lemma qeq_this (a b : Qc) : a = b -> (this a == this b)%Q.
Proof. intros ->. reflexivity. Qed.

Ltac q_pose t :=
  let ty := type of t in
  lazymatch goal with
  | _ : ty |- _ => fail
  | _ => pose proof t
  end.
Ltac q_posec a c :=
  let v := eval compute in (Qinv c) in
  let ty := constr:((this (a / Q2Qc c) == this a * v)%Q) in
  lazymatch goal with
  | _ : ty |- _ => fail
  | _ => pose proof (this_divc a c : ty)
  end.
Ltac q_sat1 :=
  match goal with
  | |- context [this (?a + ?b)] => q_pose (this_add a b)
  | |- context [this (?a - ?b)] => q_pose (this_sub a b)
  | |- context [this (?a * Q2Qc ?b)] => q_pose (this_mulc a b)
  | |- context [this (Q2Qc ?b * ?a)] => q_pose (this_cmul a b)
  | |- context [this (?a * ?b)] => q_pose (this_mul a b)
  | |- context [this (- ?a)] => q_pose (this_opp a)
  | |- context [this (?a / Q2Qc ?b)] => q_posec a b
  | |- context [this (?a / ?b)] => q_pose (this_div a b)
  | |- context [this (/ ?a)] => q_pose (this_inv a)
  | |- context [this (Q2Qc ?a)] => q_pose (this_Q2Qc a)
  | |- context [this EPS] => q_pose this_EPS
  | |- context [this BIG_M] => q_pose this_BIGM
  | _ : context [this (?a + ?b)] |- _ => q_pose (this_add a b)
  | _ : context [this (?a - ?b)] |- _  => q_pose (this_sub a b)
  | _ : context [this (?a * Q2Qc ?b)] |- _ => q_pose (this_mulc a b)
  | _ : context [this (Q2Qc ?b * ?a)] |- _ => q_pose (this_cmul a b)
  | _ : context [this (?a * ?b)] |- _  => q_pose (this_mul a b)
  | _ : context [this (- ?a)] |- _  => q_pose (this_opp a)
  | _ : context [this (?a / Q2Qc ?b)] |- _  => q_posec a b
  | _ : context [this (?a / ?b)] |- _  => q_pose (this_div a b)
  | _ : context [this (/ ?a)] |- _  => q_pose (this_inv a)
  | _ : context [this (Q2Qc ?a)] |- _  => q_pose (this_Q2Qc a)
  | _ : context [this EPS] |- _ => q_pose this_EPS
  | _ : context [this BIG_M] |- _ => q_pose this_BIGM
  end.
Ltac q_hyps :=
  repeat match goal with
  | H : (?a <= ?b)%Qc |- _ => change (this a <= this b)%Q in H
  | H : (?a < ?b)%Qc |- _ => change (this a < this b)%Q in H
  | H : @eq Qc ?a ?b |- _ => apply qeq_this in H
  | H : ~ @eq Qc ?a ?b |- _ => apply qneq_this in H
  end.
Ltac q_goal :=
  lazymatch goal with
  | |- (?a <= ?b)%Qc => change (this a <= this b)%Q
  | |- (?a < ?b)%Qc => change (this a < this b)%Q
  | |- @eq Qc ?a ?b => apply Qc_is_canon
  | |- ~ _ => let H := fresh in intro H
  | |- False => idtac
  | |- _ => idtac
  end.
(** Keep only hypotheses the linear solver can use. *)
Ltac q_clear :=
  repeat match goal with
  | H : ?T |- _ =>
      lazymatch T with
      | Qc => fail | Q => fail | nat => fail | list _ => fail
      | (_ <= _)%Qc => fail | (_ < _)%Qc => fail | @eq Qc _ _ => fail | ~ @eq Qc _ _ => fail
      | (_ <= _)%Q => fail | (_ < _)%Q => fail | (_ == _)%Q => fail | ~ (_ == _)%Q => fail
      | _ => clear H
      end
  end.
Ltac qprep := intros; q_goal; repeat (match goal with H : _ /\ _ |- _ => destruct H end); q_clear; q_hyps; repeat q_sat1.
Ltac qlra := solve [qprep; lra].
Ltac qnra := solve [qprep; nra].

(** Boolean comparisons: destruct with [qcase]. *)
Ltac qcase :=
  match goal with
  | |- context [?a <=? ?b] => destruct (Qcleb_spec a b)
  | |- context [?a <? ?b] => destruct (Qcltb_spec a b)
  | |- context [?a =? ?b] => destruct (Qceqb_spec a b)
  end.

Goal forall a b c : Qc, a < b -> b <= c + Q2Qc (1#2) -> a - c < 1. Proof. qlra. Qed.
Goal forall a b c : Qc, 0 <= a -> c = b / Q2Qc 2 ->  0 <= b -> 0 <= a + c. Proof. qlra. Qed.
Goal forall a b : Qc, 0 <= a -> 0 <= b -> 0 <= a * b. Proof. qnra. Qed.
Goal forall a b : Qc, a <= b -> b <= a -> a = b. Proof. qlra. Qed.

(** ** naturals into [Qc] *)
Lemma qz_add a b : qz (a + b) = qz a + qz b.
Proof. apply Qc_is_canon. rewrite this_add, !this_qz. rewrite inject_Z_plus. reflexivity. Qed.
Lemma qz_mul a b : qz (a * b) = qz a * qz b.
Proof. apply Qc_is_canon. rewrite this_mul, !this_qz. rewrite inject_Z_mult. reflexivity. Qed.
Lemma qz_opp a : qz (- a) = - qz a.
Proof. apply Qc_is_canon. rewrite this_opp, !this_qz. rewrite inject_Z_opp. reflexivity. Qed.
Lemma qz_le a b : (a <= b)%Z <-> qz a <= qz b.
Proof. unfold Qcle. rewrite !this_qz, <- Zle_Qle. reflexivity. Qed.
Lemma qz_lt a b : (a < b)%Z <-> qz a < qz b.
Proof. unfold Qclt. rewrite !this_qz, <- Zlt_Qlt. reflexivity. Qed.
Lemma qz_inj a b : qz a = qz b -> a = b.
Proof. intros H. apply Z.le_antisymm; apply qz_le; rewrite H; apply Qcle_refl. Qed.
Lemma qn_0 : qn 0 = 0. Proof. apply Qc_is_canon. reflexivity. Qed.
Lemma qn_1 : qn 1 = 1. Proof. apply Qc_is_canon. reflexivity. Qed.
Lemma qn_add a b : qn (a + b) = qn a + qn b.
Proof. unfold qn. rewrite Nat2Z.inj_add. apply qz_add. Qed.
Lemma qn_mul a b : qn (a * b) = qn a * qn b.
Proof. unfold qn. rewrite Nat2Z.inj_mul. apply qz_mul. Qed.
Lemma qn_S n : qn (S n) = qn n + 1.
Proof. rewrite <- qn_1, <- qn_add. f_equal. lia. Qed.
Lemma qn_sub a b : (b <= a)%nat -> qn (a - b) = qn a - qn b.
Proof. intros H. replace (qn a) with (qn ((a - b) + b)) by (f_equal; lia). rewrite qn_add. ring. Qed.
Lemma qn_le a b : (a <= b)%nat <-> qn a <= qn b.
Proof. unfold qn. rewrite <- qz_le. lia. Qed.
Lemma qn_lt a b : (a < b)%nat <-> qn a < qn b.
Proof. unfold qn. rewrite <- qz_lt. lia. Qed.
Lemma qn_nonneg n : 0 <= qn n. Proof. rewrite <- qn_0. apply qn_le. lia. Qed.
Lemma qn_pos n : (0 < n)%nat -> 0 < qn n. Proof. rewrite <- qn_0. apply qn_lt. Qed.
Lemma qn_inj a b : qn a = qn b -> a = b. Proof. intros H. apply qz_inj in H. lia. Qed.
Lemma qn_neq0 n : (0 < n)%nat -> qn n <> 0.
Proof. intros H E. apply qn_pos in H. qlra. Qed.

(** ** order and division lemmas *)
Lemma Qc_neq_lt (a b : Qc) : a < b -> a <> b. Proof. qlra. Qed.
Lemma Qcmult_le_0 a b : 0 <= a -> 0 <= b -> 0 <= a * b. Proof. qnra. Qed.
Lemma Qcmult_lt_0 a b : 0 < a -> 0 < b -> 0 < a * b. Proof. qnra. Qed.
Lemma Qcinv_pos a : 0 < a -> 0 < / a.
Proof. unfold Qclt. rewrite this_inv. intros H. apply Qinv_lt_0_compat. exact H. Qed.
Lemma Qcdiv_le_0 a b : 0 <= a -> 0 < b -> 0 <= a / b.
Proof. intros. apply Qcmult_le_0; [assumption|]. apply Qclt_le_weak, Qcinv_pos; assumption. Qed.
Lemma Qcdiv_lt_0 a b : 0 < a -> 0 < b -> 0 < a / b.
Proof. intros. apply Qcmult_lt_0; [assumption|]. apply Qcinv_pos; assumption. Qed.
Lemma Qcdiv_mul a b : b <> 0 -> a / b * b = a.
Proof. intros. field. assumption. Qed.
Lemma Qcmul_div a b : b <> 0 -> a * b / b = a.
Proof. intros. field. assumption. Qed.
Lemma Qcmul_le_compat_l a b c : 0 <= c -> a <= b -> c * a <= c * b. Proof. qnra. Qed.
Lemma Qcmul_le_compat_r a b c : 0 <= c -> a <= b -> a * c <= b * c. Proof. qnra. Qed.
Lemma Qcmul_lt_compat_r a b c : 0 < c -> a < b -> a * c < b * c. Proof. qnra. Qed.
Lemma Qcmul_lt_compat_l a b c : 0 < c -> a < b -> c * a < c * b. Proof. qnra. Qed.
Lemma Qcdiv_le_iff a b c : 0 < c -> (a / c <= b <-> a <= b * c).
Proof.
  intros Hc. assert (E : a / c * c = a) by (apply Qcdiv_mul; qlra).
  split; intros H.
  - rewrite <- E. apply Qcmul_le_compat_r; [qlra|exact H].
  - apply Qcnot_lt_le. intros L. apply (Qcmul_lt_compat_r _ _ c Hc) in L. rewrite E in L. qlra.
Qed.
Lemma Qcle_div_iff a b c : 0 < c -> (b <= a / c <-> b * c <= a).
Proof.
  intros Hc. assert (E : a / c * c = a) by (apply Qcdiv_mul; qlra).
  split; intros H.
  - rewrite <- E. apply Qcmul_le_compat_r; [qlra|exact H].
  - apply Qcnot_lt_le. intros L. apply (Qcmul_lt_compat_r _ _ c Hc) in L. rewrite E in L. qlra.
Qed.
Lemma Qclt_div_iff a b c : 0 < c -> (b < a / c <-> b * c < a).
Proof.
  intros Hc. pose proof (Qcdiv_le_iff a b c Hc) as [A B].
  split; intros H; apply Qcnot_le_lt; intros L.
  - apply B in L. qlra.
  - apply A in L. qlra.
Qed.
Lemma Qcdiv_lt_iff a b c : 0 < c -> (a / c < b <-> a < b * c).
Proof.
  intros Hc. pose proof (Qcle_div_iff a b c Hc) as [A B].
  split; intros H; apply Qcnot_le_lt; intros L.
  - apply B in L. qlra.
  - apply A in L. qlra.
Qed.
Lemma Qcdiv_le_compat a b c : 0 < c -> a <= b -> a / c <= b / c.
Proof. intros Hc H. apply Qcdiv_le_iff; [exact Hc|]. rewrite Qcdiv_mul; [exact H|qlra]. Qed.
Lemma Qcsq_nonneg a : 0 <= a * a. Proof. qnra. Qed.
Lemma Qcsq_0 a : a * a = 0 -> a = 0.
Proof. intros H. destruct (Qcmult_integral _ _ H); assumption. Qed.

Definition Qcmin (a b : Qc) : Qc := if a <=? b then a else b.
Definition Qcmax (a b : Qc) : Qc := if a <=? b then b else a.
Definition Qcabs (a : Qc) : Qc := if 0 <=? a then a else - a.

(** * Lists *)

Definition sumq (l : list Qc) : Qc := fold_right Qcplus 0 l.

Lemma sumq_cons a l : sumq (a :: l) = a + sumq l. Proof. reflexivity. Qed.
Lemma sumq_app a b : sumq (a ++ b) = sumq a + sumq b.
Proof. induction a as [|x a IH]; simpl; [ring|]. rewrite IH. ring. Qed.
Lemma sumq_perm a b : Permutation a b -> sumq a = sumq b.
Proof. induction 1; simpl; try congruence; ring. Qed.
Lemma sumq_map_add {A} (f g : A -> Qc) l : sumq (map (fun a => f a + g a) l) = sumq (map f l) + sumq (map g l).
Proof. induction l as [|x l IH]; simpl; [ring|]. rewrite IH. ring. Qed.
Lemma sumq_map_sub {A} (f g : A -> Qc) l : sumq (map (fun a => f a - g a) l) = sumq (map f l) - sumq (map g l).
Proof. induction l as [|x l IH]; simpl; [ring|]. rewrite IH. ring. Qed.
Lemma sumq_map_mul {A} c (f : A -> Qc) l : sumq (map (fun a => c * f a) l) = c * sumq (map f l).
Proof. induction l as [|x l IH]; simpl; [ring|]. rewrite IH. ring. Qed.
Lemma sumq_map_mulr {A} c (f : A -> Qc) l : sumq (map (fun a => f a * c) l) = sumq (map f l) * c.
Proof. induction l as [|x l IH]; simpl; [ring|]. rewrite IH. ring. Qed.
Lemma sumq_const {A} c (l : list A) : sumq (map (fun _ => c) l) = qn (length l) * c.
Proof. induction l as [|x l IH]; simpl; [rewrite qn_0; ring|]. rewrite IH, qn_S. ring. Qed.
Lemma sumq_nonneg l : (forall x, In x l -> 0 <= x) -> 0 <= sumq l.
Proof.
  induction l as [|x l IH]; simpl; intros H; [apply Qcle_refl|].
  pose proof (H x (or_introl eq_refl)). assert (0 <= sumq l) by (apply IH; intros; apply H; now right). qlra.
Qed.
Lemma sumq_zero_iff l : (forall x, In x l -> 0 <= x) -> (sumq l = 0 <-> forall x, In x l -> x = 0).
Proof.
  induction l as [|x l IH]; intros H; simpl; [split; [intros _ y []|reflexivity]|].
  assert (Hx : 0 <= x) by (apply H; now left).
  assert (Hl : 0 <= sumq l) by (apply sumq_nonneg; intros; apply H; now right).
  assert (IH' := IH (fun y Hy => H y (or_intror Hy))).
  split.
  - intros E. assert (x = 0) by qlra. assert (sumq l = 0) by qlra.
    intros y [->|Hy]; [assumption|]. now apply IH'.
  - intros E. rewrite (E x) by now left. rewrite (proj2 IH'); [ring|]. intros; apply E; now right.
Qed.
Lemma sumq_map_ext {A} (f g : A -> Qc) l : (forall a, In a l -> f a = g a) -> sumq (map f l) = sumq (map g l).
Proof. intros H. f_equal. apply map_ext_in. exact H. Qed.
Lemma sumq_le {A} (f g : A -> Qc) l : (forall a, In a l -> f a <= g a) -> sumq (map f l) <= sumq (map g l).
Proof.
  induction l as [|x l IH]; simpl; intros H; [apply Qcle_refl|].
  pose proof (H x (or_introl eq_refl)). assert (sumq (map f l) <= sumq (map g l)) by (apply IH; intros; apply H; now right). qlra.
Qed.

Definition sumn (l : list nat) : nat := fold_right Nat.add 0%nat l.
Lemma sumn_app a b : sumn (a ++ b) = (sumn a + sumn b)%nat.
Proof. induction a; simpl; lia. Qed.
Lemma sumn_perm a b : Permutation a b -> sumn a = sumn b.
Proof. induction 1; simpl; lia. Qed.

(** Nth with a proof-friendly extensionality principle. *)
Lemma list_ext {A} (d : A) l1 l2 :
  length l1 = length l2 -> (forall i, (i < length l1)%nat -> nth i l1 d = nth i l2 d) -> l1 = l2.
Proof. intros. apply nth_ext with d d; assumption. Qed.

Lemma nth_map_in {A B} (f : A -> B) l i d d' : (i < length l)%nat -> nth i (map f l) d' = f (nth i l d).
Proof. intros H. rewrite nth_indep with (d' := f d) by now rewrite map_length. apply map_nth. Qed.

Lemma nth_seq i a n d : (i < n)%nat -> nth i (seq a n) d = (a + i)%nat.
Proof. intros. now apply seq_nth. Qed.

Lemma map_nth_seq {A} (l : list A) d : map (fun i => nth i l d) (seq 0 (length l)) = l.
Proof.
  apply list_ext with d; rewrite map_length, seq_length; [reflexivity|].
  intros i Hi. rewrite nth_map_in with (d := O) by now rewrite seq_length.
  now rewrite nth_seq.
Qed.

Lemma in_nth_iff {A} (l : list A) d x : In x l <-> exists i, (i < length l)%nat /\ nth i l d = x.
Proof.
  split; [apply In_nth|]. intros (i & Hi & <-). now apply nth_In.
Qed.

Fixpoint list_updn {A} (l : list A) (i : nat) (f : A -> A) : list A :=
  match l, i with
  | [], _ => []
  | a :: l', O => f a :: l'
  | a :: l', S i' => a :: list_updn l' i' f
  end.
Definition list_set {A} (l : list A) (i : nat) (a : A) := list_updn l i (fun _ => a).

Lemma list_updn_length {A} (l : list A) i f : length (list_updn l i f) = length l.
Proof. revert i; induction l as [|a l IH]; intros [|i]; simpl; auto. Qed.
Lemma list_set_length {A} (l : list A) i a : length (list_set l i a) = length l.
Proof. apply list_updn_length. Qed.
Lemma list_updn_nth {A} (l : list A) i f j d : (i < length l)%nat ->
  nth j (list_updn l i f) d = if Nat.eqb j i then f (nth i l d) else nth j l d.
Proof.
  revert i j; induction l as [|a l IH]; intros i j H; simpl in H; [lia|].
  destruct i as [|i], j as [|j]; simpl; auto. apply IH. lia.
Qed.
Lemma list_set_nth {A} (l : list A) i a j d : (i < length l)%nat ->
  nth j (list_set l i a) d = if Nat.eqb j i then a else nth j l d.
Proof. intros. unfold list_set. now rewrite list_updn_nth. Qed.
Lemma list_set_nth_same {A} (l : list A) i a d : (i < length l)%nat -> nth i (list_set l i a) d = a.
Proof. intros. rewrite list_set_nth by assumption. now rewrite Nat.eqb_refl. Qed.
Lemma list_set_nth_other {A} (l : list A) i a j d : i <> j -> nth j (list_set l i a) d = nth j l d.
Proof.
  intros Hij. destruct (Nat.lt_ge_cases i (length l)) as [L|L].
  - rewrite list_set_nth by assumption. destruct (Nat.eqb_spec j i); [congruence|reflexivity].
  - unfold list_set. revert i j Hij L. induction l as [|b l IH]; intros i j Hij L; [reflexivity|].
    destruct i as [|i]; simpl in L; [lia|]. destruct j as [|j]; simpl; auto. apply IH; lia.
Qed.

Lemma filter_length_le {A} (p : A -> bool) l : (length (filter p l) <= length l)%nat.
Proof. induction l as [|a l IH]; simpl; [lia|]. destruct (p a); simpl; lia. Qed.

Lemma filter_none {A} (p : A -> bool) l : (forall a, In a l -> p a = false) -> filter p l = [].
Proof. induction l as [|a l IH]; simpl; intros H; [reflexivity|]. rewrite (H a) by now left. apply IH. intros; apply H; now right. Qed.
Lemma filter_all {A} (p : A -> bool) l : (forall a, In a l -> p a = true) -> filter p l = l.
Proof. induction l as [|a l IH]; simpl; intros H; [reflexivity|]. rewrite (H a) by now left. f_equal. apply IH. intros; apply H; now right. Qed.

Lemma filter_map_comm {A B} (f : A -> B) (p : B -> bool) l : filter p (map f l) = map f (filter (fun a => p (f a)) l).
Proof. induction l as [|a l IH]; simpl; [reflexivity|]. destruct (p (f a)); simpl; now rewrite IH. Qed.

Lemma combine_map_fst {A B} (l : list A) (l' : list B) : length l = length l' -> map fst (combine l l') = l.
Proof. revert l'; induction l as [|a l IH]; intros [|b l'] H; simpl in *; try lia; [reflexivity|]. f_equal. apply IH. lia. Qed.
Lemma combine_map_snd {A B} (l : list A) (l' : list B) : length l = length l' -> map snd (combine l l') = l'.
Proof. revert l'; induction l as [|a l IH]; intros [|b l'] H; simpl in *; try lia; [reflexivity|]. f_equal. apply IH. lia. Qed.

Definition last_idx {A} (l : list A) : nat := Nat.pred (length l).

Lemma partition_perm {A} (p : A -> bool) l :
  Permutation l (filter p l ++ filter (fun a => negb (p a)) l).
Proof.
  induction l as [|a l IH]; simpl; [constructor|]. destruct (p a); simpl.
  - now constructor.
  - eapply perm_trans; [apply perm_skip, IH|]. apply Permutation_middle.
Qed.

(** [count p l] *)
Definition count {A} (p : A -> bool) (l : list A) : nat := length (filter p l).
Lemma count_split {A} (p : A -> bool) l : (count p l + count (fun a => negb (p a)) l = length l)%nat.
Proof. unfold count. rewrite <- app_length. symmetry. apply Permutation_length, partition_perm. Qed.

Lemma skipn_skipn_ {A} a b (l : list A) : skipn a (skipn b l) = skipn (b + a) l.
Proof. revert l. induction b as [|b IH]; intros l; [reflexivity|]. destruct l as [|x l]; [now rewrite !skipn_nil|]. simpl. apply IH. Qed.
Lemma nth_skipn_ {A} n (l : list A) i d : nth i (skipn n l) d = nth (n + i) l d.
Proof. revert l. induction n as [|n IH]; intros l; [reflexivity|]. destruct l as [|x l]; [rewrite skipn_nil; now destruct i|]. simpl. apply IH. Qed.
Lemma nth_firstn_ {A} n (l : list A) i d : (i < n)%nat -> nth i (firstn n l) d = nth i l d.
Proof.
  revert l i. induction n as [|n IH]; intros l i H; [lia|]. destruct l as [|x l]; [reflexivity|].
  destruct i as [|i]; [reflexivity|]. simpl. apply IH. lia.
Qed.

(** Literals and display: [qs] turns a list of rational literals into [Qc]; results are shown through
    [this] (the reduced fraction), which computes. *)
Definition qs_ (l : list Q) : list Qc := map Q2Qc l.
Notation qs l := (qs_ l%Q).
Definition show (l : list Qc) : list Q := map this l.
Definition shown (l : list (option Qc)) : list (option Q) := map (option_map this) l.
