(** C122: In float64, negating the model negates the curves and changes neither the heterogeneity nor the subregions.
    No hypothesis on sizes: the data and the model may hold NaN and infinities, sums may overflow, calls may raise. *)
From Coq Require Import Reals.
From Flocq Require Import Core.
From Flocq Require Import IEEE754.BinarySingleNaN.
From Verif Require Import Base Numpy Utils FloatModel FloatMean FloatVar FloatPDP FloatAdapt FloatRegion FloatRegionPDP FloatRegionALE FloatOpp FloatOppALE FloatOppAll Prop_FloatGreedy.
Open Scope nat_scope.

(** [opp x y]: y is -x; the sign of a zero is left open. Spelled out: *)
Theorem C122_negative x y : opp x y <->
  match x with
  | B754_nan => y = B754_nan
  | B754_infinity s => y = B754_infinity (negb s)
  | B754_zero _ => y = B754_zero true \/ y = B754_zero false
  | B754_finite s m e H => y = B754_finite (negb s) m e H
  end.
Proof.
  destruct x as [s|s| |s m e H].
  - split; [intros [->|(a & b & _ & ->)]; [destruct s; cbn; auto|destruct b; auto]|intros [-> | ->]; apply opp_zero].
  - split; [intros [->|(a & b & Z & _)]; [reflexivity|discriminate Z]|intros ->; now left].
  - split; [intros [->|(a & b & Z & _)]; [reflexivity|discriminate Z]|intros ->; now left].
  - split; [intros [->|(a & b & Z & _)]; [reflexivity|discriminate Z]|intros ->; now left].
Qed.
(** [mirrored r r']: both calls raise the same exception, or the curves are negatives of each other point by point and the
    heterogeneities are the same float64 numbers, bit for bit. *)

(** ** ALE: fit with Fixed(nof, m, cat), then eval(xs, heterogeneity=True, centering=c) *)
Theorem C122_ale X model model' lo hi f nof m cat mean c xs : (forall Y, opps (model Y) (model' Y)) ->
  mirrored (p <- ale_fit_feature64 X model lo hi f nof m cat ;; ale_eval64 mean c p lo hi xs)
           (p <- ale_fit_feature64 X model' lo hi f nof m cat ;; ale_eval64 mean c p lo hi xs).
Proof. intros H. apply alike_bind with (R := negated_params); [now apply ale_fit2|]. intros p q P. now apply ale_eval2. Qed.

(** ** RHALE: the effects E are negated; any binning method; [var] is np.var, which does not see the sign *)
Definition even_var (var : list b64 -> b64) : Prop := forall l l', opps l l' -> var l' = var l.
Theorem C122_rhale var X E E' lo hi f b mean c xs : even_var var -> Forall2 opps E E' ->
  mirrored (p <- rhale_fit_feature64 var X E lo hi f b ;; ale_eval64 mean c p lo hi xs)
           (p <- rhale_fit_feature64 var X E' lo hi f b ;; ale_eval64 mean c p lo hi xs).
Proof. intros V H. apply alike_bind with (R := negated_params); [now apply rhale_fit2|]. intros p q P. now apply ale_eval2. Qed.
(** the same when RHALE computes the effects itself, by finite differences of the model *)
Theorem C122_rhale_model var X model model' dim eps lo hi f b mean c xs : even_var var -> (forall Y, opps (model Y) (model' Y)) ->
  mirrored (E <- compute_jacobian64 model dim X eps ;; p <- rhale_fit_feature64 var X E lo hi f b ;; ale_eval64 mean c p lo hi xs)
           (E <- compute_jacobian64 model' dim X eps ;; p <- rhale_fit_feature64 var X E lo hi f b ;; ale_eval64 mean c p lo hi xs).
Proof. intros V H. apply alike_bind with (R := Forall2 opps); [now apply jacobian2|]. intros E E' HE. now apply C122_rhale. Qed.
(** np.var in any order of summation does not see the sign *)
Theorem C122_var (o : nat -> order) : even_var (fun l => mean64 o (map (sqdev (mean64 o l)) l)).
Proof.
  intros l l' H. pose proof (mean2 o _ _ H) as M. f_equal. symmetry. apply eq2. eapply map2; [|exact H].
  intros a b A. unfold sqdev. symmetry. apply fmul_same. now apply fsub_opp.
Qed.

(** ** PDP and DerPDP: eval(xs, heterogeneity=True, centering=c) *)
Theorem C122_pdp p m' c xs : negated_target (p64_target p) m' -> mirrored (pdp_eval64 p c xs) (pdp_eval64 (with_target p m') c xs).
Proof. apply pdp_eval2. Qed.

(** ** RegionalPDP, RegionalDerPDP, RegionalALE, RegionalRHALE: the same subregions, with the same numbers *)
Definition with_heter (g : regions64) (h : list row64 -> res b64) : regions64 := renamed g h (fun r => r).
Theorem C122_regional_pdp c g m' : (forall x, g64_heter g x = pdp_heter64 c x) -> negated_target (h64_target c) m' ->
  subregions64 (with_heter g (pdp_heter64 (with_htarget c m'))) = subregions64 g.
Proof. intros G H. apply subregions_u; [reflexivity|]. intros x. rewrite map_id, G. now apply pdp_heter2. Qed.
Theorem C122_regional_ale c g model model' nof m cat : (forall x, g64_heter g x = ale_heter64 c x) -> r64_fit c = region_ale64 (r64_feature c) model nof m cat ->
  (forall Y, opps (model Y) (model' Y)) ->
  subregions64 (with_heter g (ale_heter64 (with_fit c (region_ale64 (r64_feature c) model' nof m cat)))) = subregions64 g.
Proof.
  intros G F H. apply subregions_u; [reflexivity|]. intros x. rewrite map_id, G. apply ale_heter2; [reflexivity|]. intros lo hi. rewrite F. now apply ale_fit2.
Qed.
(** the Jacobian is cut with the rows: every row's effects are negated *)
Definition negate_row (r : row64) : row64 := (fst r, map Bopp (snd r)).
Theorem C122_regional_rhale c g var b : (forall x, g64_heter g x = ale_heter64 c x) -> r64_fit c = region_rhale64 (r64_feature c) var b -> even_var var ->
  subregions64 (renamed g (ale_heter64 c) negate_row) = subregions64 g.
Proof.
  intros G F V. apply subregions_u; [reflexivity|]. intros x. rewrite G.
  replace (ale_heter64 c (map negate_row x)) with (ale_heter64 (with_fit c (r64_fit c)) (map negate_row x)) by reflexivity.
  apply ale_heter2; [rewrite map_map; reflexivity|]. intros lo hi. rewrite F. unfold region_rhale64.
  replace (map fst (map negate_row x)) with (map fst x) by (rewrite map_map; reflexivity). apply rhale_fit2; [exact V|].
  rewrite map_map. apply map_same2. intros r. cbn [negate_row snd]. induction (snd r); cbn [map]; constructor; [apply opp_Bopp|assumption].
Qed.

(** ** hypotheses met: numpy's sequential variance, a model with a NaN and an infinite output, a finite one *)
Example even_seq : even_var var_seq.
Proof.
  intros l l' H. unfold var_seq. rewrite (len2 _ _ _ H). cbn zeta. f_equal. f_equal. symmetry. apply eq2. eapply map2; [|exact H]. intros a b A. symmetry.
  apply fmul_same, fsub_opp; [exact A|]. apply fdiv_opp. now apply fsum2.
Qed.
Definition wild (r : list b64) : b64 :=
  let v := nth 0 r fnan in if Beqb v (fofn 3) then fnan else if Beqb v (fofn 5) then B754_infinity false else fmul v (nth 1 r fnan).
Example wild_negated Y : opps (map wild Y) (map (fun r => Bopp (wild r)) Y).
Proof. apply map_same2. intros r. apply opp_Bopp. Qed.
Definition rows8 : list (list b64) := map (fun i => [fofn i; fofn (Nat.modulo i 3)]) (seq 0 8).
Definition calm (r : list b64) : b64 := fmul (nth 0 r fnan) (nth 1 r fnan).
(** the fit and eval of [calm] return, with a curve and a heterogeneity that are not zero *)
Example calm_runs : match p <- ale_fit_feature64 rows8 (map calm) (fofn 0) (fofn 7) 0 2 0 3 ;; ale_eval64 (fun n => At 0) ZeroStart p (fofn 0) (fofn 7) [fofn 7] with
  | Ok ([y], [z]) => Bltb fzero y && Bltb fzero z
  | _ => false end = true.
Proof. vm_compute. reflexivity. Qed.
Example calm_mirror : match p <- ale_fit_feature64 rows8 (map (fun r => Bopp (calm r))) (fofn 0) (fofn 7) 0 2 0 3 ;; ale_eval64 (fun n => At 0) ZeroStart p (fofn 0) (fofn 7) [fofn 7] with
  | Ok ([y], [z]) => Bltb y fzero && Bltb fzero z
  | _ => false end = true.
Proof. vm_compute. reflexivity. Qed.

Print Assumptions C122_negative.
Print Assumptions C122_ale.
Print Assumptions C122_rhale.
Print Assumptions C122_rhale_model.
Print Assumptions C122_var.
Print Assumptions C122_pdp.
Print Assumptions C122_regional_pdp.
Print Assumptions C122_regional_ale.
Print Assumptions C122_regional_rhale.
