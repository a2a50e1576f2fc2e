(** C124: In float64, where the model is asked: ALE only at the two limits of the instance's own bin, PDP everywhere. *)
From Coq Require Import Reals.
From Flocq Require Import Core.
From Flocq Require Import IEEE754.BinarySingleNaN.
From Verif Require Import Base Numpy Utils FloatModel FloatMean FloatVar FloatDer FloatPDP FloatAdapt FloatRegionPDPProofs FloatOpp FloatOppALE FloatOppAll FloatAsk FloatEdges Prop_FloatGreedy Prop_FloatOpp.
Open Scope nat_scope.

(** [between x a b]: one of a, b is at most x and the other one is greater. *)
Theorem C124_between x a b : between x a b = true <-> (Bleb a x = true /\ Bltb x b = true) \/ (Bleb b x = true /\ Bltb x a = true).
Proof. unfold between. rewrite orb_true_iff, !andb_true_iff. reflexivity. Qed.

Lemma take_nth {A} (l : list A) ind r d : take l ind = Ok r -> length r = length ind /\ forall j, (j < length ind)%nat -> nth j ind 0 < length l /\ nth j r d = nth (nth j ind 0) l d.
Proof.
  intros H. apply mapM_iff in H. apply (forall2_nth _ _ _ 0 d) in H as [L H]. split; [exact L|]. intros j J. specialize (H j J). unfold getn in H.
  destruct (nth_error l (nth j ind 0)) eqn:E; [|discriminate H]. apply ok_inj in H. subst a. split; [apply nth_error_Some; congruence|]. symmetry. now apply nth_error_nth.
Qed.
Lemma mapM_same {A B} (h h' : A -> res B) l : (forall x, In x l -> h x = h' x) -> mapM h l = mapM h' l.
Proof. induction l as [|x l IH]; intros H; [reflexivity|]. cbn [mapM]. rewrite (H x) by now left. now rewrite IH by (intros; apply H; now right). Qed.
Lemma digitize_length xs l ind : digitize64 xs l = Ok ind -> length ind = length xs.
Proof. unfold digitize64. destruct (mono_incr64 l); [|destruct (mono_decr64 l); [|discriminate]]; intros H; apply ok_inj in H; subst ind; apply map_length. Qed.
Lemma in_range_nan lo hi f r : in_range64 lo hi f r = true -> is_nan (nth f r fnan) = false.
Proof. unfold in_range64. intros H. apply andb_true_iff in H as [H _]. now apply le_nan_r in H. Qed.

(** ** ALE: row-wise models g and g' that agree on every instance moved to the limits of its bin give the same fit *)
Theorem C124_ale X g g' lo hi f nof m cat p : ale_fit_feature64 X (map g) lo hi f nof m cat = Ok p ->
  (forall r i, In r X -> in_range64 lo hi f r = true -> S i < length (p64_limits p) ->
     between (nth f r fnan) (nth i (p64_limits p) fnan) (nth (S i) (p64_limits p) fnan) = true ->
     g (list_set r f (nth i (p64_limits p) fnan)) = g' (list_set r f (nth i (p64_limits p) fnan)) /\
     g (list_set r f (nth (S i) (p64_limits p) fnan)) = g' (list_set r f (nth (S i) (p64_limits p) fnan))) ->
  ale_fit_feature64 X (map g') lo hi f nof m cat = Ok p.
Proof.
  intros H A. unfold ale_fit_feature64 in *. cbn zeta in *. set (d := filter (in_range64 lo hi f) X) in *.
  apply bind_ok in H as (r & HF & H). rewrite HF. cbn [bind]. destruct r as [l|]; [|discriminate H].
  assert (HD : forall r, In r d -> In r X /\ in_range64 lo hi f r = true) by (intros r Hr; now apply filter_In in Hr).
  clearbody d. clear HF. unfold compute_local_effects64 in *. destruct (l0 <- getn l 0 ;; _); [|discriminate H].
  set (L := widen64 l) in *. apply bind_ok in H as (es & HE & H).
  assert (EL : p64_limits p = L).
  { unfold compute_ale_params64 in H. cbn zeta in H. apply bind_ok in H as ([be n] & _ & H). apply bind_ok in H as ([bv bev] & _ & H). apply bind_ok in H as (e & _ & H). apply bind_ok in H as (v & _ & H). apply bind_ok in H as (w & _ & H).
    apply ok_inj in H. subst p. reflexivity. }
  rewrite EL in A. clear EL. apply bind_ok in HE as (ind & HI & HE). rewrite HI. cbn [bind]. apply bind_ok in HE as (u & HP & HE). rewrite HP. cbn [bind].
  apply bind_ok in HE as (r & HR & HE). rewrite HR. cbn [bind]. apply bind_ok in HE as (q & HQ & HE). rewrite HQ. cbn [bind].
  assert (PO : forallb (fun i => Nat.ltb 0 i) ind = true) by (destruct (forallb _ ind); [reflexivity|discriminate HP]).
  assert (LI : length ind = length d). { apply digitize_length in HI. unfold col64 in HI. now rewrite map_length in HI. }
  destruct (take_nth _ _ _ fnan HR) as [LR NR]. destruct (take_nth _ _ _ fnan HQ) as [LQ NQ']. rewrite map_length in LQ, NQ'.
  assert (K : forall j, j < length d -> let x := nth f (nth j d []) fnan in
    g (list_set (nth j d []) f (nth j r fnan)) = g' (list_set (nth j d []) f (nth j r fnan)) /\ g (list_set (nth j d []) f (nth j q fnan)) = g' (list_set (nth j d []) f (nth j q fnan))).
  { intros j J x. destruct (NR j ltac:(lia)) as [B1 E1]. destruct (NQ' j ltac:(lia)) as [B2 E2]. rewrite E1, E2.
    assert (EP : nth j (map Nat.pred ind) 0 = Nat.pred (nth j ind 0)) by exact (map_nth Nat.pred ind 0 j). rewrite EP. assert (P : 0 < nth j ind 0). { rewrite forallb_forall in PO. apply Nat.ltb_lt, PO, nth_In. lia. }
    destruct (HD (nth j d []) (nth_In _ _ J)) as [IX IR]. pose proof (in_range_nan _ _ _ _ IR) as N.
    assert (EX : nth j (col64 d f) fnan = x). { unfold col64, x. rewrite (nth_indep _ fnan (nth f [] fnan)) by now rewrite map_length. now rewrite (map_nth (fun r => nth f r fnan)). }
    pose proof (digitize_edges (col64 d f) L ind j HI ltac:(unfold col64; now rewrite map_length) ltac:(rewrite EX; exact N) P B1) as BT. rewrite EX in BT.
    destruct (nth j ind 0) as [|k] eqn:EK; [lia|]. cbn [Nat.pred] in *. destruct (A _ k IX IR B1 BT) as [A1 A2]. split; [exact A2|exact A1]. }
  assert (M : forall vs, length vs = length d -> (forall j, j < length d -> g (list_set (nth j d []) f (nth j vs fnan)) = g' (list_set (nth j d []) f (nth j vs fnan))) ->
    map g' (set_col64 d f vs) = map g (set_col64 d f vs)).
  { intros vs LV Q. apply map_ext_in. intros y Hy. unfold set_col64 in Hy. apply in_map_iff in Hy as ([r0 v] & <- & Hy). cbn [fst snd].
    apply (In_nth _ _ ([], fnan)) in Hy as (j & Hj & Ej). rewrite combine_length in Hj. rewrite combine_nth in Ej by now rewrite LV. inversion Ej; subst. symmetry. apply Q. lia. }
  rewrite (M r), (M q); [|lia|apply K|lia|apply K]. rewrite HE. cbn [bind]. exact H.
Qed.

(** ** The numerical Jacobian asks at the instances and eps beyond them along each feature *)
Theorem C124_jacobian g g' dim X eps :
  (forall r, In r X -> g r = g' r) -> (forall r f, In r X -> (f < dim)%nat -> g (list_updn r f (fun v => fadd v eps)) = g' (list_updn r f (fun v => fadd v eps))) ->
  compute_jacobian64 (map g) dim X eps = compute_jacobian64 (map g') dim X eps.
Proof.
  intros H0 H1. unfold compute_jacobian64. f_equal. assert (E : map g X = map g' X) by (apply map_ext_in; auto). rewrite E.
  apply mapM_same. intros f Hf. apply in_seq in Hf.
  replace (map g' (map (fun r => list_updn r f (fun v => fadd v eps)) X)) with (map g (map (fun r => list_updn r f (fun v => fadd v eps)) X)); [reflexivity|].
  rewrite !map_map. apply map_ext_in. intros r Hr. apply H1; [exact Hr|lia].
Qed.

(** ** PDP asks at every position (and centering point), combined with every instance between the limits *)
Theorem C124_pdp p g g' c xs : p64_target p = Outputs g ->
  (forall r x, In r (p64_rows p) -> in_range64 (p64_lo p) (p64_hi p) (p64_feature p) r = true ->
     In x (match c with NoCentering => [] | ZeroStart => [p64_lo p] | ZeroIntegral => linspace64 (p64_lo p) (p64_hi p) (FloatPDP.p64_points p) end ++ xs) ->
     g (list_set r (p64_feature p) x) = g' (list_set r (p64_feature p) x)) ->
  pdp_eval64 (with_target p (Outputs g')) c xs = pdp_eval64 p c xs.
Proof.
  intros T H. assert (P : forall zs, (forall x, In x zs -> In x (match c with NoCentering => [] | ZeroStart => [p64_lo p] | ZeroIntegral => linspace64 (p64_lo p) (p64_hi p) (FloatPDP.p64_points p) end ++ xs)) ->
    predict64 (with_target p (Outputs g')) zs = predict64 p zs).
  { intros zs I. unfold predict64. apply map_ext_in. intros x Hx. change (kept64 (with_target p (Outputs g'))) with (kept64 p). apply map_ext_in. intros r Hr.
    unfold kept64 in Hr. apply filter_In in Hr as [R1 R2]. rewrite T. cbn [with_target p64_target p64_feature ice64]. symmetry. apply H; auto. }
  unfold pdp_eval64. cbn [with_target p64_lo p64_hi p64_axis1]. destruct (assert_ _); [|reflexivity]. cbn [bind]. cbn zeta.
  assert (centered64 (with_target p (Outputs g')) c xs = centered64 p c xs) as ->; [|reflexivity]. unfold centered64.
  assert (FloatPDP.norm_const64 (with_target p (Outputs g')) c = FloatPDP.norm_const64 p c) as ->.
  { destruct c; cbn [FloatPDP.norm_const64]; [reflexivity| |]; cbn [with_target p64_lo p64_hi FloatPDP.p64_points p64_axis0].
    - change (mk_pdp64 (Outputs g') (p64_rows p) (p64_feature p) (p64_lo p) (p64_hi p) (FloatPDP.p64_points p) (p64_axis0 p) (p64_axis1 p)) with (with_target p (Outputs g')).
      rewrite P by (intros; apply in_or_app; now left). reflexivity.
    - change (mk_pdp64 (Outputs g') (p64_rows p) (p64_feature p) (p64_lo p) (p64_hi p) (FloatPDP.p64_points p) (p64_axis0 p) (p64_axis1 p)) with (with_target p (Outputs g')).
      rewrite P by (intros; apply in_or_app; now left). reflexivity. }
  now rewrite P by (intros; apply in_or_app; now right).
Qed.

(** ** a case: two models that differ away from the diagonal, where there is no data; ALE cannot tell them apart, PDP can *)
Definition diag_rows : list (list b64) := map (fun i => [fofn i; fofn i]) (seq 0 8).
Definition plain (r : list b64) : b64 := fmul (nth 0 r fnan) (nth 1 r fnan).
Definition away (r : list b64) : b64 := if Bltb (fofn 3) (Babs (fsub (nth 0 r fnan) (nth 1 r fnan))) then fofn 1000 else plain r.
Definition agree64 (g g' : list b64 -> b64) (r : list b64) (v : b64) : bool := Beqb (g (list_set r 0 v)) (g' (list_set r 0 v)).
Example diag_ale : match ale_fit_feature64 diag_rows (map plain) (fofn 0) (fofn 7) 0 4 0 3, ale_fit_feature64 diag_rows (map away) (fofn 0) (fofn 7) 0 4 0 3 with
  | Ok p, Ok q => forallb (fun ab => Beqb (fst ab) (snd ab)) (combine (p64_effect p) (p64_effect q)) && Nat.eqb (length (p64_effect p)) 4 &&
      forallb (fun r => forallb (fun i => implb (between (nth 0 r fnan) (nth i (p64_limits p) fnan) (nth (S i) (p64_limits p) fnan))
                                            (agree64 plain away r (nth i (p64_limits p) fnan) && agree64 plain away r (nth (S i) (p64_limits p) fnan))) (seq 0 4)) diag_rows
  | _, _ => false end = true.
Proof. vm_compute. reflexivity. Qed.
Definition diag_pdp (g : list b64 -> b64) : pdp64 := mk_pdp64 (Outputs g) diag_rows 0 (fofn 0) (fofn 7) 100 (fun n => At 0) (fun n => At 0).
Example diag_pdp_differs : match pdp_eval64 (diag_pdp plain) NoCentering [fofn 7], pdp_eval64 (diag_pdp away) NoCentering [fofn 7] with
  | Ok ([a], _), Ok ([b], _) => negb (Beqb a b) | _, _ => false end = true.
Proof. vm_compute. reflexivity. Qed.

Print Assumptions C124_between.
Print Assumptions C124_ale.
Print Assumptions C124_jacobian.
Print Assumptions C124_pdp.
