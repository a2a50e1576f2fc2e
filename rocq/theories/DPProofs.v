(** DP.find: optimality and validity of the dynamic programme (C14, C15). *)
From Verif Require Import Base Numpy Spec NumpyFacts Utils UtilsProofs Binning BinProofs.
Open Scope Qc_scope.
Open Scope list_scope.

(** ** argmin without NaN *)
Lemma argmin_from_spec l : forall best bi i, (bi < i)%nat ->
  exists v k, argmin_from best bi i (map Some l) = (Some v, k) /\ v <= best /\ (forall x, In x l -> v <= x) /\
    ((v = best /\ k = bi) \/ ((i <= k < i + length l)%nat /\ v = l@(k - i))).
Proof.
  induction l as [|a l IH]; intros best bi i Hb; simpl.
  - exists best, bi. split; [reflexivity|]. split; [apply Qcle_refl|]. split; [intros x []|]. auto.
  - destruct (Qcltb_spec a best) as [L|L].
    + destruct (IH a i (S i) ltac:(lia)) as (v & k & E & H1 & H2 & H3). exists v, k. split; [exact E|].
      split; [qlra|]. split.
      * intros x [<-|Hx]; auto.
      * right. destruct H3 as [[-> ->]|[H3 ->]].
        -- split; [lia|]. rewrite Nat.sub_diag. reflexivity.
        -- split; [lia|]. replace (k - i)%nat with (S (k - S i)) by lia. reflexivity.
    + destruct (IH best bi (S i) ltac:(lia)) as (v & k & E & H1 & H2 & H3). exists v, k. split; [exact E|].
      split; [exact H1|]. split.
      * intros x [<-|Hx]; [qlra|auto].
      * destruct H3 as [H3|[H3 ->]]; [now left|]. right. split; [lia|].
        replace (k - i)%nat with (S (k - S i)) by lia. reflexivity.
Qed.

Lemma min_argmin_spec (g : nat -> Qc) n :
  exists v k, np_min_argmin (map (fun i => Some (g i)) (seq 0 (n + 1))) = Ok (Some v, k) /\ (k <= n)%nat /\ v = g k /\
    forall j, (j <= n)%nat -> v <= g j.
Proof.
  replace (n + 1)%nat with (S n) by lia. change (seq 0 (S n)) with (0 :: seq 1 n)%nat. cbn [map np_min_argmin].
  rewrite <- (map_map g Some).
  destruct (argmin_from_spec (map g (seq 1 n)) (g 0%nat) 0 1 ltac:(lia)) as (v & k & E & H1 & H2 & H3).
  exists v, k. split; [now rewrite E|]. rewrite map_length, seq_length in H3. split.
  - destruct H3 as [[_ ->]|[H3 _]]; lia.
  - split.
    + destruct H3 as [[-> ->]|[H3 ->]]; [reflexivity|].
      rewrite (nth_map_in _ _ _ 0%nat) by (rewrite seq_length; lia). rewrite seq_nth by lia. f_equal. lia.
    + intros [|j] Hj; [exact H1|]. apply H2. apply in_map. apply in_seq. lia.
Qed.

Section DP.
Variables (K : nat) (c : nat -> nat -> Qc) (cost : nat -> nat -> NQ).
Hypothesis Hcost : forall a e, (a <= K)%nat -> (e <= K)%nat -> cost a e = Some (c a e).

(** cost of a path 0 -> ... -> cur, given in reverse *)
Fixpoint rcost (cur : nat) (l : list nat) : Qc :=
  match l with [] => c 0%nat cur | p :: l' => rcost p l' + c p cur end.
(** cost of a path read forwards *)
Fixpoint fcost (l : list nat) : Qc :=
  match l with a :: (e :: _) as l' => c a e + fcost l' | _ => 0 end.

Definition colv (V : nat -> Qc) : list NQ := map (fun i => Some (V i)) (seq 0 (K + 1)).
Lemma colv_nth V i : (i <= K)%nat -> nth i (colv V) None = Some (V i).
Proof. intros H. unfold colv. rewrite (nth_map_in _ _ _ 0%nat) by (rewrite seq_length; lia). rewrite nth_seq by lia. reflexivity. Qed.

Lemma dp_column_spec V : exists V' args, dp_column cost K (colv V) = (colv V', args) /\
  forall nxt, (nxt <= K)%nat -> (nth nxt args 0 <= K)%nat /\ V' nxt = V (nth nxt args 0%nat) + c (nth nxt args 0%nat) nxt /\
    forall bef, (bef <= K)%nat -> V' nxt <= V bef + c bef nxt.
Proof.
  set (r := fun nxt => match np_min_argmin (map (fun before => lift2 Qcplus (nth before (colv V) None) (cost before nxt)) (seq 0 (K + 1))) with
      | Ok p => p | Raise _ => (None, 0%nat) end).
  set (V' := fun nxt => match fst (r nxt) with Some v => v | None => 0 end).
  assert (S : forall nxt, (nxt <= K)%nat -> exists v k, r nxt = (Some v, k) /\ (k <= K)%nat /\ v = V k + c k nxt /\
     forall bef, (bef <= K)%nat -> v <= V bef + c bef nxt).
  { intros nxt Hn. unfold r.
    rewrite (map_ext_in _ (fun i => Some (V i + c i nxt))).
    - destruct (min_argmin_spec (fun i => V i + c i nxt) K) as (v & k & E & Hk & Hv & Hm). exists v, k. rewrite E. auto.
    - intros i Hi. apply in_seq in Hi. rewrite colv_nth by lia. rewrite Hcost by lia. reflexivity. }
  exists V', (map (fun nxt => snd (r nxt)) (seq 0 (K + 1))). split.
  - unfold dp_column. fold r. rewrite !map_map. f_equal. unfold colv. apply map_ext_in. intros nxt Hn. apply in_seq in Hn.
    destruct (S nxt ltac:(lia)) as (v & k & E & _). unfold V'. fold (r nxt). now rewrite E.
  - intros nxt Hn. rewrite (nth_map_in _ _ _ 0%nat) by (rewrite seq_length; lia). rewrite nth_seq by lia. simpl Nat.add.
    destruct (S nxt Hn) as (v & k & E & Hk & Hv & Hm). unfold V'. rewrite E. simpl. auto.
Qed.

Definition optimal (V : nat -> Qc) (args : list (list nat)) : Prop :=
  forall cur, (cur <= K)%nat ->
    length (backtrack cur args) = length args /\ Forall (fun i => (i <= K)%nat) (backtrack cur args) /\
    rcost cur (backtrack cur args) = V cur /\
    forall l, length l = length args -> Forall (fun i => (i <= K)%nat) l -> V cur <= rcost cur l.

Lemma dp_columns_optimal n : forall V args, optimal V args ->
  exists V', optimal V' (dp_columns cost K n (colv V) args) /\ length (dp_columns cost K n (colv V) args) = (n + length args)%nat.
Proof.
  induction n as [|n IH]; intros V args H; cbn [dp_columns]; cbv zeta.
  - exists V. auto.
  - destruct (dp_column_spec V) as (V' & a & E & HV). rewrite E. cbn [fst snd].
    destruct (IH V' (a :: args)) as (V'' & O & L).
    + intros cur Hc. destruct (HV cur Hc) as (Hp & Ev & Hm). simpl backtrack.
      destruct (H _ Hp) as (L1 & F1 & R1 & M1). split; [simpl; now rewrite L1|]. split; [now constructor|]. split.
      * simpl. rewrite R1. now rewrite Ev.
      * intros [|p l] Hl Hf; [discriminate|]. simpl in Hl. injection Hl as Hl. inversion_clear Hf as [|? ? Hp' Hf'].
        simpl. destruct (H p Hp') as (_ & _ & _ & M2). specialize (M2 l Hl Hf'). specialize (Hm p Hp'). qlra.
    + exists V''. split; [exact O|]. rewrite L. simpl. lia.
Qed.

Lemma fcost_app l a e : fcost (l ++ [a; e]) = fcost (l ++ [a]) + c a e.
Proof.
  induction l as [|x l IH]; [simpl; ring|]. destruct l as [|y l]; [simpl; ring|].
  change (fcost ((x :: y :: l) ++ [a; e])) with (c x y + fcost ((y :: l) ++ [a; e])).
  change (fcost ((x :: y :: l) ++ [a])) with (c x y + fcost ((y :: l) ++ [a])). rewrite IH. ring.
Qed.
Lemma fcost_rcost l : forall cur, fcost (0%nat :: rev l ++ [cur]) = rcost cur l.
Proof.
  induction l as [|p l IH]; intros cur; [simpl; ring|].
  simpl rev. rewrite <- app_assoc. simpl app.
  rewrite app_comm_cons, fcost_app, <- app_comm_cons, IH. reflexivity.
Qed.

Lemma dp_path_optimal : (1 <= K)%nat ->
  exists mid, dp_path cost K = (0 :: mid ++ [K])%nat /\ length mid = (K - 1)%nat /\ Forall (fun i => (i <= K)%nat) mid /\
    forall mid', length mid' = (K - 1)%nat -> Forall (fun i => (i <= K)%nat) mid' ->
      fcost (dp_path cost K) <= fcost (0 :: mid' ++ [K])%nat.
Proof.
  intros HK. unfold dp_path.
  assert (E0 : map (cost 0%nat) (seq 0 (K + 1)) = colv (c 0%nat)).
  { apply map_ext_in. intros i Hi. apply in_seq in Hi. apply Hcost; lia. }
  rewrite E0. destruct (dp_columns_optimal (K - 1) (c 0%nat) []) as (V & O & L).
  { intros cur Hc. split; [reflexivity|]. split; [constructor|]. split; [reflexivity|].
    intros [|? ?] Hl _; [apply Qcle_refl|discriminate]. }
  set (args := dp_columns cost K (K - 1) (colv (c 0%nat)) []) in *. simpl in L. rewrite Nat.add_0_r in L.
  destruct (O K (Nat.le_refl K)) as (L1 & F1 & R1 & M1).
  exists (rev (backtrack K args)). split; [reflexivity|]. split; [rewrite rev_length; congruence|]. split; [now apply Forall_rev|].
  intros mid' Hl Hf. rewrite <- (rev_involutive mid'), !fcost_rcost, R1. apply M1; [rewrite rev_length; congruence|now apply Forall_rev].
Qed.

(** ** cheap paths are monotone and feasible *)
Hypothesis Hnn : forall a e, 0 <= c a e.
Hypothesis Hback : forall a e, (e < a)%nat -> c a e = BIG_M.
Hypothesis Hstay : forall a, c a a = 0.

Lemma fcost_nonneg l : 0 <= fcost l.
Proof.
  induction l as [|a l IH]; [apply Qcle_refl|]. destruct l as [|e l]; [apply Qcle_refl|].
  change (0 <= c a e + fcost (e :: l)). specialize (Hnn a e). qlra.
Qed.

(** every move of the path satisfies P *)
Inductive moves (P : nat -> nat -> Prop) : list nat -> Prop :=
| mv_nil : moves P []
| mv_one a : moves P [a]
| mv_cons a e l : P a e -> moves P (e :: l) -> moves P (a :: e :: l).

Lemma cheap_moves l : fcost l < BIG_M -> moves (fun a e => (a <= e)%nat /\ c a e < BIG_M) l.
Proof.
  induction l as [|a l IH]; [constructor|]. destruct l as [|e l]; [constructor|].
  change (fcost (a :: e :: l)) with (c a e + fcost (e :: l)). intros H.
  pose proof (fcost_nonneg (e :: l)). pose proof (Hnn a e).
  constructor; [|apply IH; qlra]. split; [|qlra].
  destruct (Nat.le_gt_cases a e) as [L|L]; [exact L|]. rewrite (Hback a e L) in H. qlra.
Qed.

Lemma moves_impl (P Q : nat -> nat -> Prop) l : (forall a e, P a e -> Q a e) -> moves P l -> moves Q l.
Proof. intros H. induction 1; constructor; auto. Qed.

(** dedup of a monotone path *)
Lemma dedup_spec l : forall a, moves (fun a e => (a <= e)%nat /\ c a e < BIG_M) (a :: l) ->
  StronglySorted lt (a :: dedup (Some a) l) /\ fcost (a :: dedup (Some a) l) = fcost (a :: l) /\
  moves (fun a e => c a e < BIG_M) (a :: dedup (Some a) l) /\
  last (a :: dedup (Some a) l) 0%nat = last (a :: l) 0%nat.
Proof.
  induction l as [|e l IH]; intros a H; simpl dedup.
  - split; [repeat constructor|]. split; [reflexivity|]. split; [constructor|reflexivity].
  - inversion H as [| |? ? ? [Hae Hc] Hm E1]. subst. destruct (Nat.eqb_spec a e) as [->|Ne].
    + destruct (IH e Hm) as (S1 & F1 & M1 & L1). split; [exact S1|]. split; [|split; [exact M1|exact L1]].
      rewrite F1. change (fcost (e :: e :: l)) with (c e e + fcost (e :: l)). rewrite Hstay. ring.
    + destruct (IH e Hm) as (S1 & F1 & M1 & L1). split.
      * constructor; [exact S1|]. inversion_clear S1 as [|? ? S2 S3]. constructor; [lia|].
        eapply Forall_impl; [|exact S3]. intros x Hx. simpl in Hx. lia.
      * split; [|split].
        -- change (c a e + fcost (e :: dedup (Some e) l) = c a e + fcost (e :: l)). now rewrite F1.
        -- constructor; assumption.
        -- exact L1.
Qed.

Lemma sorted_lt_bound l : forall a, StronglySorted lt (a :: l) -> (forall x, In x (a :: l) -> (x <= K)%nat) -> (length l + a <= K)%nat.
Proof.
  induction l as [|e l IH]; intros a Hs Hb; [simpl; apply Hb; now left|].
  inversion_clear Hs as [|? ? S1 S2]. assert (a < e)%nat by (inversion S2; assumption).
  specialize (IH e S1 (fun x Hx => Hb x (or_intror Hx))). simpl in *. lia.
Qed.

Lemma fcost_pad n l : fcost (repeat 0%nat n ++ 0%nat :: l) = fcost (0%nat :: l).
Proof.
  induction n as [|n IH]; [reflexivity|]. simpl repeat. rewrite <- app_comm_cons.
  destruct n as [|n].
  - simpl app. change (c 0%nat 0%nat + fcost (0%nat :: l) = fcost (0%nat :: l)). rewrite Hstay. ring.
  - simpl repeat in *. rewrite <- app_comm_cons in *. rewrite <- IH.
    change (c 0%nat 0%nat + fcost (0%nat :: repeat 0%nat n ++ 0%nat :: l) = fcost (0%nat :: repeat 0%nat n ++ 0%nat :: l)).
    rewrite Hstay. ring.
Qed.

(** The DP path beats every strictly increasing index sequence from 0 to K. *)
Lemma dp_path_beats mid : (1 <= K)%nat -> StronglySorted lt (0 :: mid ++ [K])%nat ->
  fcost (dp_path cost K) <= fcost (0 :: mid ++ [K])%nat.
Proof.
  intros HK Hs. destruct (dp_path_optimal HK) as (m0 & _ & _ & _ & Opt).
  assert (B : forall x, In x (0 :: mid ++ [K])%nat -> (x <= K)%nat).
  { clear Opt. rewrite app_comm_cons in Hs |- *. revert Hs. generalize (0 :: mid)%nat. intros q.
    induction q as [|a q IHq]; intros Hs x Hx; simpl in *; [destruct Hx as [<-|[]]; lia|].
    inversion_clear Hs as [|? ? S1 S2]. destruct Hx as [<-|Hx]; [|now apply IHq].
    rewrite Forall_forall in S2. assert (a < K)%nat; [|lia]. apply S2, in_or_app. right. now left. }
  assert (L : (length mid + 1 <= K)%nat).
  { pose proof (sorted_lt_bound _ _ Hs B) as Q. rewrite app_length in Q. simpl in Q. lia. }
  set (n := (K - 1 - length mid)%nat).
  assert (E : (repeat 0 n ++ 0 :: mid ++ [K] = 0 :: (repeat 0 n ++ mid) ++ [K])%nat).
  { rewrite <- app_assoc. generalize (mid ++ [K]). intros q. clear. induction n as [|n IH]; [reflexivity|]. simpl. now rewrite IH. }
  rewrite <- (fcost_pad n (mid ++ [K])), E. apply Opt.
  - rewrite app_length, repeat_length. unfold n. lia.
  - apply Forall_app. split.
    + apply Forall_forall. intros x Hx. apply repeat_spec in Hx. lia.
    + apply Forall_forall. intros x Hx. apply B. right. apply in_or_app. now left.
Qed.

Lemma last_app1 (l : list nat) a : last (l ++ [a]) 0%nat = a.
Proof. induction l as [|x l IH]; [reflexivity|]. simpl. destruct (l ++ [a]) eqn:E; [destruct l; discriminate|exact IH]. Qed.

Lemma dp_dedup_valid : (2 <= K)%nat -> fcost (dp_path cost K) < BIG_M ->
  exists mid, dedup None (dp_path cost K) = (0 :: mid ++ [K])%nat /\ StronglySorted lt (0 :: mid ++ [K])%nat /\
    fcost (0 :: mid ++ [K])%nat = fcost (dp_path cost K) /\ moves (fun a e => c a e < BIG_M) (0 :: mid ++ [K])%nat.
Proof.
  intros HK Hc. destruct (dp_path_optimal ltac:(lia)) as (m0 & E & L & _ & _).
  rewrite E in *. apply cheap_moves in Hc. destruct (dedup_spec _ _ Hc) as (S1 & F1 & M1 & L1).
  change (dedup None (0 :: m0 ++ [K])%nat) with (0 :: dedup (Some 0) (m0 ++ [K]))%nat.
  rewrite app_comm_cons, last_app1 in L1.
  destruct (@exists_last _ (dedup (Some 0%nat) (m0 ++ [K]))) as (mid & z & Ez).
  { intros N. rewrite N in L1. simpl in L1. lia. }
  rewrite Ez in *. rewrite app_comm_cons, last_app1 in L1. subst z.
  exists mid. auto.
Qed.
End DP.

(** ** Instantiation with the bin cost *)
Lemma bin_cost_loss b m d a e : length (b_eff b) = length (b_xs b) -> (1 <= m)%nat ->
  bin_cost b m d a e = Some (bin_loss (b_xs b) (b_eff b) m d a e).
Proof.
  intros H Hm. unfold bin_cost, bin_loss. change (filter_effects_in_bin (b_xs b) (b_eff b) a e) with (effects_in (b_xs b) (b_eff b) a e).
  pose proof (effects_in_length (b_xs b) (b_eff b) a e H) as L. rewrite L.
  destruct (Nat.ltb_spec (points_in (b_xs b) a e) m) as [Lt|Ge]; [reflexivity|].
  destruct (effects_in (b_xs b) (b_eff b) a e) as [|x q] eqn:E; [simpl in L; lia|].
  unfold np_var. simpl option_map. f_equal. f_equal. f_equal. unfold variance, mean. rewrite map_length. reflexivity.
Qed.

Lemma variance_nonneg' l : 0 <= variance l.
Proof. destruct l as [|a l]; [discriminate|]. now apply variance_nonneg. Qed.

Lemma points_in_le xs a e : (points_in xs a e <= length xs)%nat.
Proof. apply filter_length_le. Qed.

Lemma discount_factor (xs : list Qc) n d : d <= 1 -> (n <= length xs)%nat -> 0 <= 1 - d * (qn n / qn (length xs)).
Proof.
  intros Hd Hn. destruct (Nat.eq_dec (length xs) 0) as [E|E].
  - rewrite E. assert (n = 0%nat) by lia. subst n. rewrite qn_0.
    replace (0 / 0) with 0 by (apply Qc_is_canon; reflexivity). qlra.
  - assert (P : 0 < qn (length xs)) by (apply qn_pos; lia).
    set (q := qn n / qn (length xs)).
    assert (0 <= q) by (apply Qcdiv_le_0; [apply qn_nonneg|exact P]).
    assert (q <= 1) by (apply Qcdiv_le_iff; [exact P|]; rewrite Qcmult_1_l; apply qn_le; exact Hn).
    clearbody q. qnra.
Qed.

Lemma bin_loss_nonneg xs es m d a e : d <= 1 -> a <= e -> 0 <= bin_loss xs es m d a e.
Proof.
  intros Hd Hae. unfold bin_loss. destruct (Nat.ltb _ m); [discriminate|].
  apply Qcmult_le_0; [apply Qcmult_le_0; [apply variance_nonneg'|qlra]|]. apply discount_factor; [exact Hd|apply points_in_le].
Qed.

Lemma bin_loss_infeasible xs es m d a e : (points_in xs a e < m)%nat -> bin_loss xs es m d a e = BIG_M.
Proof. intros H. unfold bin_loss. apply Nat.ltb_lt in H. now rewrite H. Qed.

Definition move_loss (b : binner) (m : nat) (d : Qc) (K before next : nat) : Qc :=
  if Nat.ltb next before then BIG_M else if Nat.eqb before next then 0
  else bin_loss (b_xs b) (b_eff b) m d (grid (b_lo b) (b_hi b) K before) (grid (b_lo b) (b_hi b) K next).

Lemma cost_of_move_loss b m d K x y : length (b_eff b) = length (b_xs b) -> (1 <= m)%nat ->
  cost_of_move b m d K x y = Some (move_loss b m d K x y).
Proof.
  intros H Hm. unfold cost_of_move, move_loss. destruct (Nat.ltb y x); [reflexivity|]. destruct (Nat.eqb x y); [reflexivity|].
  now apply bin_cost_loss.
Qed.

Lemma binning_loss_cons xs es m d x y l : binning_loss xs es m d (x :: y :: l) = bin_loss xs es m d x y + binning_loss xs es m d (y :: l).
Proof.
  unfold binning_loss. replace (length (x :: y :: l) - 1)%nat with (S (length (y :: l) - 1)) by (simpl; lia).
  rewrite <- cons_seq, <- seq_shift, map_cons, map_map, sumq_cons. reflexivity.
Qed.

Lemma fcost_binning b m d K l : StronglySorted lt l ->
  fcost (move_loss b m d K) l = binning_loss (b_xs b) (b_eff b) m d (map (grid (b_lo b) (b_hi b) K) l).
Proof.
  induction l as [|x l IH]; intros Hs; [reflexivity|]. destruct l as [|y l]; [reflexivity|].
  inversion_clear Hs as [|? ? S1 S2]. assert (x < y)%nat by (inversion S2; assumption).
  change (fcost (move_loss b m d K) (x :: y :: l)) with (move_loss b m d K x y + fcost (move_loss b m d K) (y :: l)).
  rewrite IH by exact S1. simpl map. rewrite binning_loss_cons. f_equal. unfold move_loss.
  destruct (Nat.ltb_spec y x); [lia|]. destruct (Nat.eqb_spec x y); [lia|]. reflexivity.
Qed.

Lemma moves_populated b m d K l : StronglySorted lt l -> moves (fun a e => move_loss b m d K a e < BIG_M) l ->
  populated (b_xs b) m (map (grid (b_lo b) (b_hi b) K) l).
Proof.
  induction l as [|x l IH]; intros Hs Hm k Hk; [simpl in Hk; lia|]. destruct l as [|y l]; [simpl in Hk; lia|].
  inversion_clear Hs as [|? ? S1 S2]. assert (Hxy : (x < y)%nat) by (inversion S2; assumption).
  inversion_clear Hm as [| |? ? ? Hc Hm'].
  destruct k as [|k].
  - simpl. destruct (Nat.le_gt_cases m (points_in (b_xs b) (grid (b_lo b) (b_hi b) K x) (grid (b_lo b) (b_hi b) K y))) as [Le|Gt]; [exact Le|].
    exfalso. unfold move_loss in Hc. destruct (Nat.ltb_spec y x); [lia|]. destruct (Nat.eqb_spec x y); [lia|].
    rewrite bin_loss_infeasible in Hc by exact Gt. qlra.
  - simpl in Hk. apply (IH S1 Hm' k). simpl. lia.
Qed.

Lemma dp_limits_ok b m d K : length (b_eff b) = length (b_xs b) -> (1 <= m)%nat -> (2 <= K)%nat -> d <= 1 -> b_lo b < b_hi b ->
  (exists l0, grid_binning (b_lo b) (b_hi b) K l0 /\ binning_loss (b_xs b) (b_eff b) m d l0 < BIG_M) ->
  grid_binning (b_lo b) (b_hi b) K (dp_limits b m d K) /\ populated (b_xs b) m (dp_limits b m d K) /\
  binning_loss (b_xs b) (b_eff b) m d (dp_limits b m d K) < BIG_M /\
  forall l', grid_binning (b_lo b) (b_hi b) K l' ->
    binning_loss (b_xs b) (b_eff b) m d (dp_limits b m d K) <= binning_loss (b_xs b) (b_eff b) m d l'.
Proof.
  intros He Hm HK Hd Hlh (l0 & (mid0 & S0 & ->) & C0).
  set (cc := move_loss b m d K).
  assert (Hcost : forall a e, (a <= K)%nat -> (e <= K)%nat -> cost_of_move b m d K a e = Some (cc a e)).
  { intros. now apply cost_of_move_loss. }
  assert (Hnn : forall a e, 0 <= cc a e).
  { intros a e. unfold cc, move_loss. destruct (Nat.ltb_spec e a); [discriminate|]. destruct (Nat.eqb a e); [apply Qcle_refl|].
    apply bin_loss_nonneg; [exact Hd|]. apply grid_le; auto. lia. }
  assert (Hback : forall a e, (e < a)%nat -> cc a e = BIG_M).
  { intros a e H. unfold cc, move_loss. apply Nat.ltb_lt in H. now rewrite H. }
  assert (Hstay : forall a, cc a a = 0).
  { intros a. unfold cc, move_loss. rewrite Nat.ltb_irrefl, Nat.eqb_refl. reflexivity. }
  assert (Beat : forall mid, StronglySorted lt (0 :: mid ++ [K])%nat ->
     fcost cc (dp_path (cost_of_move b m d K) K) <= binning_loss (b_xs b) (b_eff b) m d (map (grid (b_lo b) (b_hi b) K) (0 :: mid ++ [K])%nat)).
  { intros mid Hs. rewrite <- fcost_binning by exact Hs. apply (dp_path_beats K cc _ Hcost Hnn Hback Hstay); [lia|exact Hs]. }
  assert (Cheap : fcost cc (dp_path (cost_of_move b m d K) K) < BIG_M).
  { eapply Qcle_lt_trans; [apply Beat; exact S0|exact C0]. }
  destruct (dp_dedup_valid K cc _ Hcost Hnn Hback Hstay HK Cheap) as (mid & E & Hs & F & M).
  assert (EL : dp_limits b m d K = map (grid (b_lo b) (b_hi b) K) (0 :: mid ++ [K])%nat).
  { unfold dp_limits. rewrite E. reflexivity. }
  assert (EF : binning_loss (b_xs b) (b_eff b) m d (dp_limits b m d K) = fcost cc (dp_path (cost_of_move b m d K) K)).
  { rewrite EL, <- fcost_binning by exact Hs. exact F. }
  split; [exists mid; auto|]. split; [rewrite EL; apply moves_populated with d; auto|]. rewrite EF. split; [exact Cheap|].
  intros l' (mid' & S' & ->). now apply Beat.
Qed.

Lemma dp_find_ok b m d K c : length (b_eff b) = length (b_xs b) -> (2 <= K)%nat ->
  (c < length (unique (b_xs b)))%nat -> (1 < length (unique (b_xs b)))%nat -> (m <= length (b_xs b))%nat ->
  only_one_bin_possible b m = false ->
  dp_find b K (Some m) d c = Ok (LArr (dp_limits b m d K)).
Proof.
  intros He HK Hc Hu Hm H1. unfold dp_find, none_valid_binning. unfold bind at 1.
  destruct (Nat.eqb_spec (length (unique (b_xs b))) 1); [lia|]. destruct (Nat.ltb_spec (length (b_xs b)) m); [lia|]. simpl orb. cbv iota.
  rewrite is_categorical_none by exact Hc. unfold bind at 1. rewrite H1. destruct K as [|[|K]]; [lia|lia|reflexivity].
Qed.

(** the single all-embracing bin *)
Lemma one_bin_loss b m d K : (1 <= K)%nat -> length (b_eff b) = length (b_xs b) ->
  (forall x, In x (b_xs b) -> b_lo b <= x <= b_hi b) -> (m <= length (b_xs b))%nat -> (1 <= length (b_xs b))%nat ->
  grid_binning (b_lo b) (b_hi b) K [b_lo b; b_hi b] /\
  binning_loss (b_xs b) (b_eff b) m d [b_lo b; b_hi b] = variance (b_eff b) * (b_hi b - b_lo b) * (1 - d).
Proof.
  intros HK He Hin Hm Hn. split.
  - exists []. split; [repeat constructor; lia|]. simpl. now rewrite grid_0, grid_K.
  - unfold binning_loss. simpl. rewrite Qcplus_0_r. unfold bin_loss. rewrite points_in_all by exact Hin.
    destruct (Nat.ltb_spec (length (b_xs b)) m); [lia|].
    replace (effects_in (b_xs b) (b_eff b) (b_lo b) (b_hi b)) with (b_eff b).
    + replace (qn (length (b_xs b)) / qn (length (b_xs b))) with 1; [ring|]. field. apply qn_neq0. lia.
    + unfold effects_in. rewrite filter_all; [now rewrite combine_map_snd|]. intros [x e] Hx. simpl.
      apply in_combine_l in Hx. apply Hin in Hx as [A B]. apply Qcleb_le in A, B. now rewrite A, B.
Qed.
