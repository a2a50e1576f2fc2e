(** Facts about the numpy primitives of Numpy.v. *)
From Verif Require Import Base Numpy Spec.
Open Scope Qc_scope.

(** ** Indexing *)
Lemma nth_error_nth_lt {A} (l : list A) i d : (i < length l)%nat -> nth_error l i = Some (nth i l d).
Proof. intros H. apply nth_error_nth'. exact H. Qed.

Lemma getn_ok {A} (l : list A) i d : (i < length l)%nat -> getn l i = Ok (nth i l d).
Proof. intros H. unfold getn. now rewrite (nth_error_nth_lt l i d H). Qed.

Lemma getn_raise {A} (l : list A) i : (length l <= i)%nat -> getn l i = Raise IndexError.
Proof. intros H. unfold getn. now rewrite (proj2 (nth_error_None l i) H). Qed.

Lemma getn_inv {A} (l : list A) i a d : getn l i = Ok a -> (i < length l)%nat /\ nth i l d = a.
Proof.
  unfold getn. destruct (nth_error l i) eqn:E; intros H; inversion H; subst. split.
  - apply nth_error_Some. congruence.
  - now apply nth_error_nth.
Qed.

Lemma getz_nat {A} (l : list A) (n : nat) : getz l (Z.of_nat n) = getn l n.
Proof.
  unfold getz, getn. destruct (Z.ltb_spec (Z.of_nat n) 0); [lia|].
  destruct (Z.ltb_spec (Z.of_nat n) 0); [lia|]. now rewrite Nat2Z.id.
Qed.

Lemma getz_last {A} (l : list A) d : l <> [] -> getz l (-1) = Ok (nth (length l - 1) l d).
Proof.
  intros H. rewrite <- (getn_ok l (length l - 1) d).
  2:{ destruct l; [congruence|]. simpl. lia. }
  rewrite <- getz_nat. unfold getz. change (-1 <? 0)%Z with true. cbv iota zeta.
  destruct (Z.ltb_spec (Z.of_nat (length l - 1)) 0); [lia|].
  replace (-1 + Z.of_nat (length l))%Z with (Z.of_nat (length l - 1)); [reflexivity|].
  destruct l; [congruence|]. simpl length. lia.
Qed.

Lemma take_ok {A} (l : list A) ind d :
  (forall i, In i ind -> (i < length l)%nat) -> take l ind = Ok (map (fun i => nth i l d) ind).
Proof. intros H. apply mapM_ok. intros i Hi. apply getn_ok. now apply H. Qed.

Lemma takez_ok {A} (l : list A) (ind : list Z) d :
  (forall i, In i ind -> (0 <= i < Z.of_nat (length l))%Z) ->
  takez l ind = Ok (map (fun i => nth (Z.to_nat i) l d) ind).
Proof.
  intros H. apply mapM_ok. intros i Hi. specialize (H i Hi).
  rewrite <- (Z2Nat.id i) at 1 by lia. rewrite getz_nat. apply getn_ok. lia.
Qed.

Lemma vzip_eq {A B C} (f : A -> B -> C) a b : length a = length b ->
  vzip f a b = Ok (map (fun p => f (fst p) (snd p)) (combine a b)).
Proof. intros H. unfold vzip. now rewrite H, Nat.eqb_refl. Qed.

Lemma combine_map2 {A B C D} (f : A -> B) (g : A -> C) (h : B -> C -> D) l :
  map (fun p => h (fst p) (snd p)) (combine (map f l) (map g l)) = map (fun a => h (f a) (g a)) l.
Proof. induction l as [|a l IH]; simpl; congruence. Qed.

Lemma vzip_map {A B C D} (f : A -> B) (g : A -> C) (h : B -> C -> D) l :
  vzip h (map f l) (map g l) = Ok (map (fun a => h (f a) (g a)) l).
Proof. rewrite vzip_eq by now rewrite !map_length. now rewrite combine_map2. Qed.

Lemma combine_self_map {A B C} (f : A -> B) (g : A -> C) (l : list A) :
  combine (map f l) (map g l) = map (fun a => (f a, g a)) l.
Proof. induction l as [|a l IH]; simpl; congruence. Qed.

Lemma combine_map_r {A C} (g : A -> C) (l : list A) :
  combine l (map g l) = map (fun a => (a, g a)) l.
Proof. induction l as [|a l IH]; simpl; congruence. Qed.

(** ** count of a prefix *)
Lemma count_prefix (p : Qc -> bool) l k : (k <= length l)%nat ->
  (forall i, (i < k)%nat -> p l@i = true) ->
  (forall i, (k <= i)%nat -> (i < length l)%nat -> p l@i = false) -> count p l = k.
Proof.
  unfold count. revert k. induction l as [|a l IH]; intros k Hk Ht Hf; simpl in *; [lia|].
  destruct k as [|k].
  - rewrite (Hf 0%nat) by lia. apply IH; [lia|lia|]. intros i _ Hi. apply (Hf (S i)); lia.
  - rewrite (Ht 0%nat) by lia. simpl. f_equal. apply IH; [lia| |].
    + intros i Hi. apply (Ht (S i)). lia.
    + intros i Hi Hl. apply (Hf (S i)); lia.
Qed.

(** ** Sortedness *)
Lemma increasing_cons a l : increasing (a :: l) <-> (forall x, In x l -> a < x) /\ increasing l.
Proof.
  unfold increasing. split.
  - intros H. split.
    + intros x Hx. apply (In_nth _ _ 0) in Hx as (i & Hi & <-). apply (H 0%nat (S i)); simpl; lia.
    + intros i j Hij Hj. apply (H (S i) (S j)); simpl; lia.
  - intros [H1 H2] i j Hij Hj. destruct i as [|i], j as [|j]; simpl in *; try lia.
    + apply H1. apply nth_In. lia.
    + apply H2; lia.
Qed.

Lemma increasing_adj l : (forall i, (S i < length l)%nat -> l@i < l@(S i)) -> increasing l.
Proof.
  intros H i j Hij. induction Hij as [|j Hij IH]; intros Hj; [apply H; lia|].
  apply (Qclt_trans _ (l@j)); [apply IH; lia|apply H; lia].
Qed.

Definition weakly_increasing (l : list Qc) : Prop :=
  forall i j, (i <= j)%nat -> (j < length l)%nat -> l@i <= l@j.

Lemma increasing_weak l : increasing l -> weakly_increasing l.
Proof.
  intros H i j Hij Hj. destruct (Nat.eq_dec i j) as [->|n]; [apply Qcle_refl|].
  apply Qclt_le_weak, H; lia.
Qed.

Lemma diff_nth_gen {A} (d : A) l i : (S i < length l)%nat ->
  nth i (combine l (tl l)) (d,d) = (nth i l d, nth (S i) l d).
Proof.
  revert i. induction l as [|a l IH]; intros i Hi; [simpl in Hi; lia|].
  destruct l as [|b l]; [simpl in Hi; lia|].
  change (combine (a :: b :: l) (tl (a :: b :: l))) with ((a, b) :: combine (b :: l) (tl (b :: l))).
  destruct i as [|i]; [reflexivity|]. change (nth i (combine (b :: l) (tl (b :: l))) (d, d) = (nth i (b :: l) d, nth (S i) (b :: l) d)).
  apply IH. simpl in *. lia.
Qed.
Lemma mono_incr_iff l : mono_incr l = true <-> weakly_increasing l.
Proof.
  unfold mono_incr. split.
  - intros H i j Hij. induction Hij as [|j Hij IH]; intros Hj; [apply Qcle_refl|].
    apply (Qcle_trans _ (l@j)); [apply IH; lia|]. clear IH Hij i.
    revert j Hj H. induction l as [|a l IHl]; intros j Hj H; simpl in Hj; [lia|].
    destruct l as [|b l]; [simpl in Hj; lia|]. simpl in H. apply andb_true_iff in H as [H1 H2].
    destruct j as [|j]; [now apply Qcleb_le in H1|]. apply (IHl j); [simpl in *; lia|exact H2].
  - intros H. apply forallb_forall. intros [x y] Hp. apply Qcleb_le. simpl.
    apply (In_nth _ _ (0,0)) in Hp as (i & Hi & E).
    rewrite combine_length in Hi. assert (Hl : length (tl l) = (length l - 1)%nat) by (destruct l; simpl; lia).
    assert (E' : nth i (combine l (tl l)) (0,0) = (l@i, l@(S i))) by (apply diff_nth_gen; lia).
    rewrite E' in E. inversion E; subst. apply H; lia.
Qed.

Lemma combine_tl_length {A} (l : list A) : length (combine l (tl l)) = (length l - 1)%nat.
Proof. rewrite combine_length. destruct l; cbn [tl length]; lia. Qed.

(** ** digitize *)
Lemma digitize1_iff l x i : weakly_increasing l -> (i < length l)%nat ->
  (l@i <= x <-> (i < digitize1 l x)%nat).
Proof.
  unfold digitize1, count. revert i. induction l as [|a l IH]; intros i W Hi; simpl in Hi; [lia|].
  assert (Wl : weakly_increasing l) by (intros p q Hpq Hq; apply (W (S p) (S q)); simpl; lia).
  simpl. destruct (Qcleb_spec a x) as [L|L].
  - simpl. destruct i as [|i]; [simpl; split; [lia|auto]|].
    rewrite (IH i Wl) by lia. lia.
  - rewrite filter_none.
    + simpl. split; [|lia]. intros Hx. exfalso.
      assert (a <= nth i (a :: l) 0) by (apply (W 0%nat i); simpl; lia). simpl in *. qlra.
    + intros b Hb. apply Qcleb_gt. apply (In_nth _ _ 0) in Hb as (j & Hj & <-).
      assert (a <= l@j) by (apply (W 0%nat (S j)); simpl; lia). qlra.
Qed.

Lemma digitize1_le l x : (digitize1 l x <= length l)%nat.
Proof. apply filter_length_le. Qed.

Lemma digitize1_eq l x k : (k <= length l)%nat ->
  (forall i, (i < k)%nat -> l@i <= x) ->
  (forall i, (k <= i)%nat -> (i < length l)%nat -> x < l@i) -> digitize1 l x = k.
Proof.
  intros Hk H1 H2. apply count_prefix; [exact Hk| |].
  - intros i Hi. apply Qcleb_le. auto.
  - intros i Hi Hl. apply Qcleb_gt. auto.
Qed.

Lemma digitize_ok xs l : weakly_increasing l -> digitize xs l = Ok (map (digitize1 l) xs).
Proof. intros H. unfold digitize. now rewrite (proj2 (mono_incr_iff l) H). Qed.

(** ** bincount *)
Lemma zmax0_lt l (m : Z) : (0 <= m)%Z -> (forall z, In z l -> (z < m)%Z) -> (zmax0 l < m)%Z.
Proof.
  intros Hm H. induction l as [|a l IH]; simpl; [lia|].
  assert (a < m)%Z by (apply H; now left). assert (zmax0 l < m)%Z by (apply IH; intros; apply H; now right). unfold zmax0 in *. lia.
Qed.
Lemma zmax0_ge l z : In z l -> (z <= zmax0 l)%Z.
Proof. induction l as [|a l IH]; simpl; intros []; [subst; unfold zmax0; lia|]. apply IH in H. unfold zmax0 in *. lia. Qed.

Lemma bincount_len_eq idx n : (forall z, In z idx -> (z < Z.of_nat n)%Z) -> bincount_len idx n = n.
Proof.
  intros H. unfold bincount_len.
  assert (zmax0 idx < Z.of_nat n \/ idx = [])%Z as [L| ->].
  { destruct idx as [|a idx]; [now right|left]. apply zmax0_lt; [|exact H]. lia. }
  - lia.
  - simpl. lia.
Qed.

Lemma bincount_neg idx n z : In z idx -> (z < 0)%Z -> bincount idx n = Raise ValueError.
Proof.
  intros Hz Hn. unfold bincount. replace (existsb _ idx) with true; [reflexivity|].
  symmetry. apply existsb_exists. exists z. split; [exact Hz|]. now apply Z.ltb_lt.
Qed.
Lemma bincount_w_neg idx w n z : In z idx -> (z < 0)%Z -> bincount_w idx w n = Raise ValueError.
Proof.
  intros Hz Hn. unfold bincount_w. destruct (negb _); [reflexivity|].
  replace (existsb _ idx) with true; [reflexivity|].
  symmetry. apply existsb_exists. exists z. split; [exact Hz|]. now apply Z.ltb_lt.
Qed.
Lemma bincount_ok idx n : (forall z, In z idx -> (0 <= z)%Z) ->
  bincount idx n = Ok (map (fun k => count (Z.eqb (Z.of_nat k)) idx) (seq 0 (bincount_len idx n))).
Proof.
  intros H. unfold bincount. replace (existsb _ idx) with false; [reflexivity|].
  symmetry. apply not_true_iff_false. rewrite existsb_exists. intros (z & Hz & L).
  specialize (H z Hz). apply Z.ltb_lt in L. lia.
Qed.
Lemma bincount_w_ok idx w n : length w = length idx -> (forall z, In z idx -> (0 <= z)%Z) ->
  bincount_w idx w n = Ok (map (fun k => nsum (map snd (filter (fun p => Z.eqb (Z.of_nat k) (fst p)) (combine idx w)))) (seq 0 (bincount_len idx n))).
Proof.
  intros Hl H. unfold bincount_w. rewrite Hl, Nat.eqb_refl. simpl.
  replace (existsb _ idx) with false; [reflexivity|].
  symmetry. apply not_true_iff_false. rewrite existsb_exists. intros (z & Hz & L).
  specialize (H z Hz). apply Z.ltb_lt in L. lia.
Qed.

Lemma nsum_some l : nsum (map Some l) = Some (sumq l).
Proof. induction l as [|a l IH]; simpl; [reflexivity|]. rewrite IH. reflexivity. Qed.

(** counting each element exactly once *)
Lemma sumn_map_add {A} (f g : A -> nat) l : sumn (map (fun a => f a + g a)%nat l) = (sumn (map f l) + sumn (map g l))%nat.
Proof. induction l as [|x l IH]; simpl; [reflexivity|]. rewrite IH. lia. Qed.

Lemma sumn_ind_one n (p : nat -> bool) k : (k < n)%nat -> (forall j, (j < n)%nat -> p j = Nat.eqb j k) ->
  sumn (map (fun j => if p j then 1 else 0)%nat (seq 0 n)) = 1%nat.
Proof.
  revert k p. induction n as [|n IH]; intros k p Hk Hp; [lia|].
  rewrite seq_S, map_app, sumn_app. simpl. rewrite (Hp n) by lia.
  destruct (Nat.eqb_spec n k) as [->|Hn].
  - rewrite (map_ext_in _ (fun _ => 0%nat)).
    + clear. induction (seq 0 k); simpl in *; auto.
    + intros j Hj. apply in_seq in Hj. rewrite Hp by lia. destruct (Nat.eqb_spec j k); [lia|reflexivity].
  - rewrite (IH k p); [reflexivity|lia|]. intros j Hj. apply Hp. lia.
Qed.

Lemma sumn_zero {A} (l : list A) : sumn (map (fun _ => 0%nat) l) = 0%nat.
Proof. induction l; simpl; auto. Qed.

Lemma sumn_count {A} (p : nat -> A -> bool) n l :
  (forall a, In a l -> exists k, (k < n)%nat /\ forall j, (j < n)%nat -> p j a = Nat.eqb j k) ->
  sumn (map (fun k => count (p k) l) (seq 0 n)) = length l.
Proof.
  induction l as [|a l IH]; intros H; simpl.
  - unfold count. simpl. apply sumn_zero.
  - rewrite (map_ext _ (fun k => (if p k a then 1 else 0) + count (p k) l)%nat).
    + rewrite sumn_map_add. destruct (H a (or_introl eq_refl)) as (k & Hk & Hp).
      rewrite (sumn_ind_one n (fun j => p j a) k Hk Hp), IH; [lia|]. intros; apply H; now right.
    + intros k. unfold count. simpl. destruct (p k a); reflexivity.
Qed.

Lemma sumq_ind_one n (p : nat -> bool) (v : Qc) k : (k < n)%nat -> (forall j, (j < n)%nat -> p j = Nat.eqb j k) ->
  sumq (map (fun j => if p j then v else 0) (seq 0 n)) = v.
Proof.
  revert k p. induction n as [|n IH]; intros k p Hk Hp; [lia|].
  rewrite seq_S, map_app, sumq_app. simpl. rewrite (Hp n) by lia.
  destruct (Nat.eqb_spec n k) as [->|Hn].
  - rewrite (map_ext_in _ (fun _ => 0)).
    + rewrite sumq_const. ring.
    + intros j Hj. apply in_seq in Hj. rewrite Hp by lia. destruct (Nat.eqb_spec j k); [lia|reflexivity].
  - rewrite (IH k p); [ring|lia|]. intros j Hj. apply Hp. lia.
Qed.

Lemma sumq_groups {A} (p : nat -> A -> bool) (v : A -> Qc) n l :
  (forall a, In a l -> exists k, (k < n)%nat /\ forall j, (j < n)%nat -> p j a = Nat.eqb j k) ->
  sumq (map (fun k => sumq (map v (filter (p k) l))) (seq 0 n)) = sumq (map v l).
Proof.
  induction l as [|a l IH]; intros H; simpl.
  - rewrite (sumq_const 0). ring.
  - rewrite (map_ext _ (fun k => (if p k a then v a else 0) + sumq (map v (filter (p k) l)))).
    + rewrite sumq_map_add. destruct (H a (or_introl eq_refl)) as (k & Hk & Hp).
      rewrite (sumq_ind_one n (fun j => p j a) (v a) k Hk Hp), IH; [reflexivity|]. intros; apply H; now right.
    + intros k. destruct (p k a); simpl; [reflexivity|]. ring.
Qed.

(** ** min / max *)
Lemma Qcmin_le_l a b : Qcmin a b <= a. Proof. unfold Qcmin. qcase; qlra. Qed.
Lemma Qcmin_le_r a b : Qcmin a b <= b. Proof. unfold Qcmin. qcase; qlra. Qed.
Lemma Qcmax_ge_l a b : a <= Qcmax a b. Proof. unfold Qcmax. qcase; qlra. Qed.
Lemma Qcmax_ge_r a b : b <= Qcmax a b. Proof. unfold Qcmax. qcase; qlra. Qed.

Lemma fold_min_spec l a : let m := fold_left Qcmin l a in
  (In m (a :: l)) /\ (forall x, In x (a :: l) -> m <= x).
Proof.
  revert a. induction l as [|b l IH]; intros a; simpl.
  - split; [now left|]. intros x [->|[]]. apply Qcle_refl.
  - destruct (IH (Qcmin a b)) as [H1 H2]. simpl in *. split.
    + destruct H1 as [H1|H1]; [|now right; right]. rewrite <- H1. unfold Qcmin. qcase; [now left|now right; left].
    + intros x Hx. specialize (H2 (Qcmin a b) (or_introl eq_refl)) as Hm.
      pose proof (Qcmin_le_l a b). pose proof (Qcmin_le_r a b).
      destruct Hx as [->|[->|Hx]]; [qlra|qlra|]. apply H2. now right.
Qed.
Lemma fold_max_spec l a : let m := fold_left Qcmax l a in
  (In m (a :: l)) /\ (forall x, In x (a :: l) -> x <= m).
Proof.
  revert a. induction l as [|b l IH]; intros a; simpl.
  - split; [now left|]. intros x [->|[]]. apply Qcle_refl.
  - destruct (IH (Qcmax a b)) as [H1 H2]. simpl in *. split.
    + destruct H1 as [H1|H1]; [|now right; right]. rewrite <- H1. unfold Qcmax. qcase; [now right; left|now left].
    + intros x Hx. specialize (H2 (Qcmax a b) (or_introl eq_refl)) as Hm.
      pose proof (Qcmax_ge_l a b). pose proof (Qcmax_ge_r a b).
      destruct Hx as [->|[->|Hx]]; [qlra|qlra|]. apply H2. now right.
Qed.
Lemma np_min_spec l : l <> [] -> exists m, np_min l = Ok m /\ In m l /\ forall x, In x l -> m <= x.
Proof. destruct l as [|a l]; [congruence|]. intros _. eexists. split; [reflexivity|]. apply fold_min_spec. Qed.
Lemma np_max_spec l : l <> [] -> exists m, np_max l = Ok m /\ In m l /\ forall x, In x l -> x <= m.
Proof. destruct l as [|a l]; [congruence|]. intros _. eexists. split; [reflexivity|]. apply fold_max_spec. Qed.

(** ** unique *)
Lemma uinsert_in a l x : In x (uinsert a l) <-> x = a \/ In x l.
Proof.
  induction l as [|b l IH]; simpl; [intuition congruence|].
  repeat qcase; simpl; [intuition congruence|subst; intuition congruence|]. rewrite IH. intuition.
Qed.
Lemma uinsert_incr a l : increasing l -> increasing (uinsert a l).
Proof.
  induction l as [|b l IH]; intros H; simpl.
  - apply increasing_cons. split; [intros x []|]. intros i j _ Hj. simpl in Hj. lia.
  - apply increasing_cons in H as [H1 H2]. repeat qcase.
    + apply increasing_cons. split.
      * intros x [->|Hx]; [assumption|]. specialize (H1 x Hx). qlra.
      * apply increasing_cons. split; assumption.
    + apply increasing_cons. split; assumption.
    + apply increasing_cons. split; [|now apply IH].
      intros x Hx. apply uinsert_in in Hx as [->|Hx]; [qlra|auto].
Qed.
Lemma unique_in l x : In x (unique l) <-> In x l.
Proof. induction l as [|a l IH]; simpl; [reflexivity|]. rewrite uinsert_in, IH. intuition congruence. Qed.
Lemma unique_increasing l : increasing (unique l).
Proof.
  induction l as [|a l IH]; simpl; [intros i j _ Hj; simpl in Hj; lia|]. now apply uinsert_incr.
Qed.
Lemma increasing_NoDup l : increasing l -> NoDup l.
Proof.
  intros H. apply (NoDup_nth l 0). intros i j Hi Hj E.
  destruct (Nat.lt_trichotomy i j) as [L|[L|L]]; [|exact L|].
  - specialize (H i j L Hj). rewrite E in H. exfalso. qlra.
  - specialize (H j i L Hi). rewrite E in H. exfalso. qlra.
Qed.
Lemma increasing_unique_ext l1 l2 : increasing l1 -> increasing l2 ->
  (forall x, In x l1 <-> In x l2) -> l1 = l2.
Proof.
  revert l2. induction l1 as [|a l1 IH]; intros l2 H1 H2 E.
  - destruct l2 as [|b l2]; [reflexivity|]. exfalso. apply (E b). now left.
  - destruct l2 as [|b l2]; [exfalso; apply (E a); now left|].
    apply increasing_cons in H1 as [A1 A2], H2 as [B1 B2].
    assert (a = b).
    { pose proof (proj1 (E a) (or_introl eq_refl)) as [?|Ha]; [congruence|].
      pose proof (proj2 (E b) (or_introl eq_refl)) as [?|Hb]; [congruence|].
      specialize (B1 a Ha). specialize (A1 b Hb). exfalso. qlra. }
    subst b. f_equal. apply IH; [assumption..|]. intros x. split; intros Hx.
    + pose proof (proj1 (E x) (or_intror Hx)) as [?|?]; [|assumption]. subst. specialize (A1 x Hx). exfalso. qlra.
    + pose proof (proj2 (E x) (or_intror Hx)) as [?|?]; [|assumption]. subst. specialize (B1 x Hx). exfalso. qlra.
Qed.
Lemma unique_ext l1 l2 : (forall x, In x l1 <-> In x l2) -> unique l1 = unique l2.
Proof.
  intros H. apply increasing_unique_ext; try apply unique_increasing.
  intros x. rewrite !unique_in. apply H.
Qed.

(** ** linspace *)
Lemma linspace_length a b n : length (linspace a b n) = n.
Proof. destruct n as [|[|n]]; try reflexivity. unfold linspace. now rewrite map_length, seq_length. Qed.
Lemma linspace_nth a b n i : (2 <= n)%nat -> (i < n)%nat ->
  (linspace a b n)@i = a + qn i * ((b - a) / qn (n - 1)).
Proof.
  intros Hn Hi. destruct n as [|[|n]]; [lia|lia|]. unfold linspace.
  rewrite (nth_map_in _ _ _ O) by now rewrite seq_length. rewrite nth_seq by assumption.
  simpl Nat.add. destruct (Nat.eqb_spec (S i) (S (S n))) as [E|E]; [|reflexivity].
  injection E as ->. replace (S (S n) - 1)%nat with (S n) by lia.
  field. apply qn_neq0. lia.
Qed.
Lemma linspace_first a b n : (1 <= n)%nat -> (linspace a b n)@0 = a.
Proof.
  intros H. destruct n as [|[|n]]; [lia|reflexivity|]. rewrite linspace_nth by lia.
  rewrite qn_0. ring.
Qed.
Lemma linspace_last a b n : (2 <= n)%nat -> (linspace a b n)@(n - 1) = b.
Proof. intros H. rewrite linspace_nth by lia. field. apply qn_neq0. lia. Qed.
Lemma linspace_increasing a b n : a < b -> increasing (linspace a b n).
Proof.
  intros Hab i j Hij Hj. rewrite linspace_length in Hj.
  rewrite !linspace_nth by lia.
  assert (P : 0 < (b - a) / qn (n - 1)).
  { apply Qcdiv_lt_0; [qlra|]. apply qn_pos. lia. }
  apply qn_lt in Hij. apply (Qcmul_lt_compat_r _ _ _ P) in Hij. qlra.
Qed.

(** ** cumsum *)
Lemma cumsum_from_length acc l : length (cumsum_from acc l) = length l.
Proof. revert acc. induction l as [|a l IH]; intros acc; simpl; auto. Qed.
Lemma cumsum_from_nth acc l i : (i < length l)%nat -> (cumsum_from acc l)@i = acc + sumq (firstn (S i) l).
Proof.
  revert acc i. induction l as [|a l IH]; intros acc i Hi; simpl in Hi; [lia|].
  destruct i as [|i].
  - simpl. ring.
  - cbn [cumsum_from nth]. rewrite IH by lia. change (firstn (S (S i)) (a :: l)) with (a :: firstn (S i) l).
    rewrite sumq_cons. ring.
Qed.

Lemma nth_removelast {A} (l : list A) i d : (S i < length l)%nat -> nth i (removelast l) d = nth i l d.
Proof.
  revert i. induction l as [|a l IH]; intros i Hi; simpl in Hi; [lia|].
  destruct l as [|b l]; [simpl in Hi; lia|]. destruct i as [|i]; [reflexivity|].
  change (removelast (a :: b :: l)) with (a :: removelast (b :: l)). simpl nth. apply IH. simpl in *. lia.
Qed.
Lemma removelast_length {A} (l : list A) : length (removelast l) = (length l - 1)%nat.
Proof.
  induction l as [|a l IH]; [reflexivity|]. destruct l as [|b l]; [reflexivity|].
  change (removelast (a :: b :: l)) with (a :: removelast (b :: l)). simpl length in *. lia.
Qed.
