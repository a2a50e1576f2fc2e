(** Several copies of a dataset (C95). *)
From Verif Require Import Base Numpy Spec ALESpec NumpyFacts ALESpecFacts.
From Coq Require Import Permutation.
Open Scope Qc_scope.
Open Scope list_scope.

(** [B] consists of [k] copies of every element of [A] (with its multiplicity), in any order. *)
Definition copies {A} (k : nat) (a b : list A) : Prop := (1 <= k)%nat /\ Permutation b (concat (repeat a k)).

Lemma copies_map {A B} (f : A -> B) k a b : copies k a b -> copies k (map f a) (map f b).
Proof.
  intros (K & P). split; [exact K|]. eapply Permutation_trans; [apply Permutation_map; exact P|]. clear. induction k as [|k IH]; [constructor|].
  simpl. rewrite map_app. now apply Permutation_app_head.
Qed.
Lemma permutation_filter {A} (p : A -> bool) a b : Permutation a b -> Permutation (filter p a) (filter p b).
Proof.
  induction 1; simpl; auto.
  - destruct (p x); auto.
  - destruct (p x), (p y); auto. constructor.
  - eapply perm_trans; eauto.
Qed.
Lemma copies_filter {A} (p : A -> bool) k a b : copies k a b -> copies k (filter p a) (filter p b).
Proof.
  intros (K & P). split; [exact K|]. eapply Permutation_trans; [apply permutation_filter; exact P|]. clear. induction k as [|k IH]; [constructor|].
  simpl. rewrite filter_app. now apply Permutation_app_head.
Qed.
Lemma copies_in {A} k (a b : list A) x : copies k a b -> In x a <-> In x b.
Proof.
  intros (K & P). split; intros H.
  - apply (Permutation_in x (Permutation_sym P)). destruct k as [|k]; [lia|]. simpl. apply in_or_app. now left.
  - apply (Permutation_in x P) in H. apply in_concat in H as (l & Hl & Hx). apply repeat_spec in Hl. now subst l.
Qed.
Lemma copies_length {A} k (a b : list A) : copies k a b -> length b = (k * length a)%nat.
Proof.
  intros (_ & P). rewrite (Permutation_length P). clear. induction k as [|k IH]; [reflexivity|]. simpl. rewrite app_length, IH. reflexivity.
Qed.
Lemma copies_sum k a b : copies k a b -> sumq b = qn k * sumq a.
Proof.
  intros (_ & P). rewrite (sumq_perm _ _ P). clear. induction k as [|k IH]; [simpl; change (qn 0) with 0; ring|]. simpl. rewrite sumq_app, IH. 
  rewrite qn_S. ring.
Qed.
Lemma copies_nil {A} k (a b : list A) : copies k a b -> a = [] <-> b = [].
Proof.
  intros C. pose proof (copies_length _ _ _ C) as L. destruct C as (K & _). split; intros ->; simpl in L.
  - destruct b; [reflexivity|]. rewrite Nat.mul_0_r in L. discriminate.
  - destruct a; [reflexivity|]. simpl in L. lia.
Qed.
Lemma copies_mean k a b : copies k a b -> mean b = mean a.
Proof.
  intros C. unfold mean. rewrite (copies_sum k a b C), (copies_length k a b C).
  destruct a as [|x a]; [simpl; rewrite Nat.mul_0_r; change (qn 0) with 0; unfold Qcdiv; ring|].
  assert (K : qn k <> 0). { destruct C as (K & _). intros E. assert (Q : 0 < qn k) by (apply qn_pos; lia). rewrite E in Q. now apply Qclt_not_eq in Q. }
  assert (N : qn (length (x :: a)) <> 0). { intros E. assert (Q : 0 < qn (length (x :: a))) by (apply qn_pos; simpl; lia). rewrite E in Q. now apply Qclt_not_eq in Q. }
  rewrite qn_mul. field. split; assumption.
Qed.
Lemma copies_variance k a b : copies k a b -> variance b = variance a.
Proof. intros C. unfold variance. rewrite (copies_mean k a b C). eapply copies_mean. apply copies_map. exact C. Qed.
Lemma copies_mean_of k a b : copies k a b -> mean_of b = mean_of a.
Proof.
  intros C. pose proof (copies_nil _ _ _ C) as N. unfold mean_of. destruct a, b.
  - reflexivity.
  - destruct N as (N & _). specialize (N eq_refl). discriminate.
  - destruct N as (_ & N). specialize (N eq_refl). discriminate.
  - f_equal. now apply (copies_mean k).
Qed.
Lemma copies_variance_of k a b : copies k a b -> length a <> 1%nat \/ k = 1%nat -> variance_of b = variance_of a.
Proof.
  intros C H. pose proof (copies_nil _ _ _ C) as N. pose proof (copies_length _ _ _ C) as L. pose proof (copies_variance _ _ _ C) as V. destruct C as (K & _).
  destruct a as [|x [|y a]].
  - destruct b; [reflexivity|]. destruct N as (N & _). specialize (N eq_refl). discriminate.
  - simpl in *. destruct H as [H|H]; [lia|]. subst k. destruct b as [|u [|w b]]; simpl in L; try lia. reflexivity.
  - destruct b as [|u [|w b]]; simpl in L; try lia. simpl. now rewrite V.
Qed.
