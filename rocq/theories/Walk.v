(** Walk: the loop of Greedy.find on the positions of the grid, for any rule that closes a bin. *)
From Verif Require Import Base.

(** [js] goes up from 0 to n; from a position a it stops at the first later position j < n where [stop a j], and at n otherwise. *)
Definition greedy_walk (stop : nat -> nat -> Prop) (n : nat) (js : list nat) : Prop :=
  nth 0 js 1%nat = 0%nat /\ last js 0%nat = n /\
  forall k, (S k < length js)%nat ->
    let a := nth k js 0%nat in let b := nth (S k) js 0%nat in
    (a < b)%nat /\ (forall j, (a < j < b)%nat -> ~ stop a j) /\ ((b < n)%nat -> stop a b).

Section W.
  Variables (cl : nat -> nat -> bool) (n : nat).
  Definition close_at (a j : nat) : bool := if Nat.eqb j n then true else cl a j.
  Fixpoint walk (todo i : nat) (js : list nat) : list nat :=
    match todo with O => js | S t => walk t (S i) (if close_at (hd 0%nat js) (S i) then S i :: js else js) end.
  Definition step (a b : nat) : Prop := (a < b)%nat /\ (forall j, (a < j < b)%nat -> cl a j = false) /\ ((b < n)%nat -> cl a b = true).
  Fixpoint steps (js : list nat) : Prop := match js with [] => False | [j] => j = 0%nat | b :: (a :: _) as js' => step a b /\ steps js' end.

  Lemma walk_steps todo : forall i h R, (i + todo = n)%nat -> (1 <= todo)%nat -> (h <= i)%nat -> steps (h :: R) -> (forall j, (h < j <= i)%nat -> cl h j = false) ->
    exists R', walk todo i (h :: R) = n :: R' /\ steps (n :: R').
  Proof.
    induction todo as [|t IH]; intros i h R Hn Ht Hh St Op; [lia|]. cbn [walk hd]. unfold close_at. destruct (Nat.eqb_spec (S i) n) as [E|E].
    - assert (t = 0)%nat by lia. subst t. cbn [walk]. rewrite E. exists (h :: R). split; [reflexivity|]. split; [|exact St].
      split; [lia|]. split; [intros j Hj; apply Op; lia|lia].
    - destruct (cl h (S i)) eqn:C.
      + apply IH; try lia. split; [|exact St]. split; [lia|]. split; [intros j Hj; apply Op; lia|auto].
      + apply IH; try lia; [exact St|]. intros j Hj. destruct (Nat.eq_dec j (S i)) as [->|]; [exact C|apply Op; lia].
  Qed.

  Lemma steps_last js : steps js -> nth (length js - 1) js 1%nat = 0%nat.
  Proof. induction js as [|b [|a js] IH]; intros St; [destruct St|exact St|]. destruct St as [_ St]. specialize (IH St). cbn [length] in *. replace (S (S (length js)) - 1)%nat with (S (length js)) by lia. replace (S (length js) - 1)%nat with (length js) in IH by lia. exact IH. Qed.
  Lemma steps_nth js : steps js -> forall k, (S k < length js)%nat -> step (nth (S k) js 0%nat) (nth k js 0%nat).
  Proof. induction js as [|b [|a js] IH]; intros St k Hk; [destruct St|cbn in Hk; lia|]. destruct St as [S1 S2]. destruct k as [|k]; [exact S1|]. apply (IH S2). cbn [length] in *. lia. Qed.
  Lemma steps_walk (stop : nat -> nat -> Prop) R : (forall a j, (a < j < n)%nat -> cl a j = true <-> stop a j) -> steps (n :: R) -> greedy_walk stop n (rev (n :: R)).
  Proof.
    intros EQ St. set (js := n :: R) in *. assert (Le : forall k, (k < length js)%nat -> (nth k js 0 <= n)%nat).
    { induction k as [|k IH]; intros Hk; [cbn; lia|]. pose proof (steps_nth js St k Hk) as [Q _]. specialize (IH ltac:(lia)). lia. }
    assert (L1 : (1 <= length js)%nat) by (cbn; lia).
    split; [|split].
    - rewrite rev_nth by lia. apply steps_last. exact St.
    - cbn [rev js]. apply last_last.
    - intros k Hk. rewrite rev_length in Hk. cbv zeta. rewrite !rev_nth by lia. replace (length js - S k)%nat with (S (length js - S (S k))) by lia.
      pose proof (steps_nth js St (length js - S (S k)) ltac:(lia)) as (Q1 & Q2 & Q3). pose proof (Le (length js - S (S k))%nat ltac:(lia)).
      split; [exact Q1|]. split.
      + intros j Hj F. apply EQ in F; [|lia]. rewrite Q2 in F by exact Hj. discriminate.
      + intros Hb. apply EQ; [lia|]. now apply Q3.
  Qed.
End W.
