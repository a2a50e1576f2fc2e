(** C127: In float64, recoding the feature by any order-preserving code only relabels the axis of its PDP.
    Nothing is assumed of the numbers: NaN, infinities and overflow are included. *)
From Coq Require Import Reals.
From Flocq Require Import Core.
From Flocq Require Import IEEE754.BinarySingleNaN.
From Verif Require Import Base Numpy Utils FloatModel FloatMean FloatVar FloatDer FloatPDP FloatRecode.
Open Scope nat_scope.

(** What the terms mean: the code replaces the values of one column; it keeps the order of the values that are compared (the limits and the column). *)
Theorem C127_recode code f r : length (recode code f r) = length r /\ (forall j, j <> f -> nth j (recode code f r) fnan = nth j r fnan) /\ (f < length r -> nth f (recode code f r) fnan = code (nth f r fnan)).
Proof.
  unfold recode. split; [apply list_updn_length|]. split; [|apply updn_in]. intros j J. destruct (Nat.lt_ge_cases f (length r)) as [L|L].
  - rewrite list_updn_nth by exact L. now rewrite (proj2 (Nat.eqb_neq j f) J).
  - now rewrite updn_out.
Qed.
(** Two objects: data, limits and positions of the second are those of the first, recoded; the second model answers at a recoded position what
    the first answers at the position (at the positions and instances at which PDP asks). Then the curves and heterogeneities are the same, bit
    for bit, or the exception is. For zero_integral the grid of centering points has to be recoded too (as for a change of unit by a power of two). *)
Theorem C127_pdp code p g g' c xs : p64_target p = Outputs g -> keeps_order code (compared p) ->
  (forall r x, In r (p64_rows p) -> In x (centered_at p c ++ xs) -> g' (list_set r (p64_feature p) (code x)) = g (list_set r (p64_feature p) x)) ->
  (c = ZeroIntegral -> linspace64 (code (p64_lo p)) (code (p64_hi p)) (FloatPDP.p64_points p) = map code (linspace64 (p64_lo p) (p64_hi p) (FloatPDP.p64_points p))) ->
  pdp_eval64 (recoded code g' p) c (map code xs) = pdp_eval64 p c xs.
Proof. apply eval_r. Qed.
(** The same instances are averaged. *)
Theorem C127_instances code p g' : keeps_order code (compared p) -> kept64 (recoded code g' p) = map (recode code (p64_feature p)) (kept64 p).
Proof. intros O. now apply kept_r. Qed.

(** ** hypotheses met: x recoded as x^2 (for 0..7, not linear), a model with a threshold in x *)
Definition square64 (v : b64) : b64 := fmul v v.
Definition step_at (t : b64) (r : list b64) : b64 := if Bltb (nth 0 r fnan) t then nth 1 r fnan else fofn 3.
Definition rows_sq : list (list b64) := map (fun i => [fofn i; fofn (i mod 3)]) (seq 0 8).
Definition pdp_sq (t : b64) : pdp64 := mk_pdp64 (Outputs (step_at t)) rows_sq 0 (fofn 0) (fofn 6) 100 (fun n => At 0) (fun n => match n with 0 => At 0 | _ => Add (At 0) (At 3) end).
Example square_order : keeps_order square64 (compared (pdp_sq (fofn 4))).
Proof.
  assert (A : forallb (fun a => forallb (fun b => Bool.eqb (Bleb (square64 a) (square64 b)) (Bleb a b) && Bool.eqb (Bltb (square64 a) (square64 b)) (Bltb a b)) (compared (pdp_sq (fofn 4)))) (compared (pdp_sq (fofn 4))) = true) by (vm_compute; reflexivity).
  intros a b Ha Hb. rewrite forallb_forall in A. specialize (A a Ha). rewrite forallb_forall in A. specialize (A b Hb). apply andb_true_iff in A as [A B]. split; now apply eqb_prop.
Qed.
Definition at_sq : list b64 := map fofn [1; 3; 4; 6].
Example square_model r x : In r rows_sq -> In x (centered_at (pdp_sq (fofn 4)) ZeroStart ++ at_sq) -> step_at (square64 (fofn 4)) (list_set r 0 (square64 x)) = step_at (fofn 4) (list_set r 0 x).
Proof.
  intros Hr Hx. assert (A : forallb (fun v => Bool.eqb (Bltb (square64 v) (square64 (fofn 4))) (Bltb v (fofn 4))) (centered_at (pdp_sq (fofn 4)) ZeroStart ++ at_sq) = true) by (vm_compute; reflexivity).
  rewrite forallb_forall in A. specialize (A x Hx). apply eqb_prop in A. apply in_map_iff in Hr as (i & <- & _). unfold step_at. cbn [list_set list_updn nth]. change (list_set [fofn i; fofn (i mod 3)] 0 (square64 x)) with [square64 x; fofn (i mod 3)]. change (list_set [fofn i; fofn (i mod 3)] 0 x) with [x; fofn (i mod 3)]. cbn [nth]. now rewrite A.
Qed.
Example square_curves : match pdp_eval64 (pdp_sq (fofn 4)) ZeroStart at_sq, pdp_eval64 (recoded square64 (step_at (square64 (fofn 4))) (pdp_sq (fofn 4))) ZeroStart (map square64 at_sq) with
  | Ok (a, s), Ok (b, t) => Nat.eqb (length a) 4 && forallb (fun q => Beqb (fst q) (snd q)) (combine (a ++ s) (b ++ t)) && negb (Beqb (nth 0 a fnan) (nth 2 a fnan)) && Bltb fzero (nth 2 s fnan)
  | _, _ => false end = true.
Proof. vm_compute. reflexivity. Qed.
(** zero_integral: the hypothesis on the grid is met by doubling (and not by squaring) *)
Definition double64 (v : b64) : b64 := fadd v v.
Example double_grid : forallb (fun q => Beqb (fst q) (snd q)) (combine (linspace64 (double64 (fofn 0)) (double64 (fofn 6)) 100) (map double64 (linspace64 (fofn 0) (fofn 6) 100))) &&
  negb (forallb (fun q => Beqb (fst q) (snd q)) (combine (linspace64 (square64 (fofn 0)) (square64 (fofn 6)) 100) (map square64 (linspace64 (fofn 0) (fofn 6) 100)))) = true.
Proof. vm_compute. reflexivity. Qed.

Print Assumptions C127_recode.
Print Assumptions C127_pdp.
Print Assumptions C127_instances.
