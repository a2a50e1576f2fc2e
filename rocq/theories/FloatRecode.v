(** FloatRecode: PDP in binary64 with the feature of interest recoded. *)
From Coq Require Import Reals.
From Flocq Require Import Core.
From Flocq Require Import IEEE754.BinarySingleNaN.
From Verif Require Import Base Numpy Utils FloatModel FloatMean FloatVar FloatDer FloatPDP.
Open Scope nat_scope.

(** the row with the value of feature f replaced by its code *)
Definition recode (code : b64 -> b64) (f : nat) (r : list b64) : list b64 := list_updn r f code.
(** the object whose data and limits are recoded *)
Definition recoded (code : b64 -> b64) (g' : list b64 -> b64) (p : pdp64) : pdp64 :=
  mk_pdp64 (Outputs g') (map (recode code (p64_feature p)) (p64_rows p)) (p64_feature p) (code (p64_lo p)) (code (p64_hi p)) (FloatPDP.p64_points p) (p64_axis0 p) (p64_axis1 p).
(** the values compared: the limits and the column of the feature *)
Definition compared (p : pdp64) : list b64 := p64_lo p :: p64_hi p :: col64 (p64_rows p) (p64_feature p).
Definition keeps_order (code : b64 -> b64) (l : list b64) : Prop :=
  forall a b, In a l -> In b l -> Bleb (code a) (code b) = Bleb a b /\ Bltb (code a) (code b) = Bltb a b.
(** the positions at which the model is asked besides those evaluated *)
Definition centered_at (p : pdp64) (c : centering64) : list b64 :=
  match c with NoCentering => [] | ZeroStart => [p64_lo p] | ZeroIntegral => linspace64 (p64_lo p) (p64_hi p) (FloatPDP.p64_points p) end.

Lemma updn_set (code : b64 -> b64) v : forall f r, list_set (list_updn r f code) f v = list_set r f v.
Proof. unfold list_set. induction f as [|f IH]; intros [|a r]; cbn; try reflexivity. now rewrite IH. Qed.
Lemma updn_out (code : b64 -> b64) : forall f r, length r <= f -> list_updn r f code = r.
Proof. induction f as [|f IH]; intros [|a r] L; cbn in *; try reflexivity; try lia. now rewrite IH by lia. Qed.
Lemma updn_in (code : b64 -> b64) : forall f r, f < length r -> nth f (list_updn r f code) fnan = code (nth f r fnan).
Proof. induction f as [|f IH]; intros [|a r] L; cbn in *; try lia; [reflexivity|]. apply IH. lia. Qed.
Lemma leb_nan_r (a : b64) : Bleb a fnan = false.
Proof. destruct a as [[]|[]| |[]]; reflexivity. Qed.

Section Recode.
  Variables (code : b64 -> b64) (p : pdp64) (g g' : list b64 -> b64) (c : centering64) (xs : list b64).
  Notation p' := (recoded code g' p).
  Notation f := (p64_feature p).
  Hypothesis T : p64_target p = Outputs g.
  Hypothesis O : keeps_order code (compared p).
  Hypothesis M : forall r x, In r (p64_rows p) -> In x (centered_at p c ++ xs) -> g' (list_set r f (code x)) = g (list_set r f x).
  Hypothesis G : c = ZeroIntegral -> linspace64 (code (p64_lo p)) (code (p64_hi p)) (FloatPDP.p64_points p) = map code (linspace64 (p64_lo p) (p64_hi p) (FloatPDP.p64_points p)).
  Lemma in_range_r r : In r (p64_rows p) -> in_range64 (code (p64_lo p)) (code (p64_hi p)) f (recode code f r) = in_range64 (p64_lo p) (p64_hi p) f r.
  Proof using O.
    intros Hr. unfold in_range64, recode. destruct (Nat.lt_ge_cases f (length r)) as [L|L].
    - rewrite updn_in by exact L. assert (I : In (nth f r fnan) (compared p)) by (right; right; unfold col64; apply in_map_iff; eauto).
      destruct (O (p64_lo p) (nth f r fnan)) as [-> _]; [now left|exact I|]. destruct (O (nth f r fnan) (p64_hi p)) as [-> _]; [exact I|right; now left|]. reflexivity.
    - rewrite updn_out, nth_overflow by exact L. now rewrite !leb_nan_r.
  Qed.
  Lemma kept_r : kept64 p' = map (recode code f) (kept64 p).
  Proof using O.
    unfold kept64. cbn [recoded p64_lo p64_hi p64_feature p64_rows]. pose proof in_range_r as H. clear T M G. induction (p64_rows p) as [|r X IH]; [reflexivity|]. cbn [map filter]. rewrite H by now left.
    destruct (in_range64 _ _ f r); cbn [map]; rewrite IH by (intros; apply H; now right); reflexivity.
  Qed.
  Lemma predict_r zs : (forall x, In x zs -> In x (centered_at p c ++ xs)) -> predict64 p' (map code zs) = predict64 p zs.
  Proof using T O M.
    intros I. unfold predict64. rewrite map_map. apply map_ext_in. intros x Hx. rewrite kept_r, map_map. apply map_ext_in. intros r Hr. apply filter_In in Hr as [Hr _].
    rewrite T. cbn [recoded p64_target p64_feature ice64]. unfold recode. rewrite updn_set. now apply M; [|apply I].
  Qed.
  Lemma norm_r : FloatPDP.norm_const64 p' c = FloatPDP.norm_const64 p c.
  Proof using T O M G.
    pose proof (predict_r (centered_at p c) ltac:(intros; apply in_or_app; now left)) as P. pose proof (f_equal (@length _) kept_r) as L. rewrite map_length in L.
    destruct c; cbn [FloatPDP.norm_const64 centered_at] in *; [reflexivity| |].
    - cbn zeta. rewrite L. cbn [recoded p64_lo p64_hi FloatPDP.p64_points p64_axis0]. rewrite (G eq_refl). change (recoded code g' p) with p' in P. now rewrite P.
    - cbn [recoded p64_lo]. cbn [map] in P. now rewrite P.
  Qed.
  Lemma eval_r : pdp_eval64 p' c (map code xs) = pdp_eval64 p c xs.
  Proof using T O M G.
    unfold pdp_eval64. change (Bltb (p64_lo p') (p64_hi p')) with (Bltb (code (p64_lo p)) (code (p64_hi p))). destruct (O (p64_lo p) (p64_hi p)) as [_ ->]; [now left|right; now left|].
    destruct (assert_ _); [|reflexivity]. cbn [bind]. cbn zeta. assert (centered64 p' c (map code xs) = centered64 p c xs) as ->; [|reflexivity].
    unfold centered64. now rewrite norm_r, predict_r by (intros; apply in_or_app; now right).
  Qed.
End Recode.
