(** FloatOppALE: negated model outputs (or effects) through ALE and RHALE in binary64. *)
From Coq Require Import Reals.
From Flocq Require Import Core.
From Flocq Require Import IEEE754.BinarySingleNaN.
From Verif Require Import Base Numpy FloatModel FloatAdapt FloatRegionALE FloatOpp.
Open Scope nat_scope.

Notation opps := (Forall2 opp).
(** the same exception, or results related by [R] *)
Definition alike {A} (R : A -> A -> Prop) (m m' : res A) : Prop :=
  match m, m' with Ok a, Ok a' => R a a' | Raise e, Raise e' => e = e' | _, _ => False end.
Lemma alike_bind {A B} (R : A -> A -> Prop) (Q : B -> B -> Prop) m m' f f' :
  alike R m m' -> (forall a a', R a a' -> alike Q (f a) (f' a')) -> alike Q (bind m f) (bind m' f').
Proof. destruct m, m'; cbn; intros H K; try contradiction; auto. Qed.
Lemma alike_bind_eq {A B} (Q : B -> B -> Prop) (m : res A) f f' :
  (forall a, m = Ok a -> alike Q (f a) (f' a)) -> alike Q (bind m f) (bind m f').
Proof. destruct m; cbn; intros K; auto. Qed.
Lemma alike_eq {A} (m m' : res A) : alike eq m m' -> m = m'.
Proof. destruct m, m'; cbn; intros H; congruence || contradiction. Qed.
Lemma alike_refl {A} (R : A -> A -> Prop) m : (forall a, R a a) -> alike R m m.
Proof. destruct m; cbn; auto. Qed.

Lemma len2 {A B} (R : A -> B -> Prop) l l' : Forall2 R l l' -> length l' = length l.
Proof. induction 1; cbn; congruence. Qed.
Lemma map2 {A B C D} (R : A -> B -> Prop) (Q : C -> D -> Prop) f g l l' :
  (forall a b, R a b -> Q (f a) (g b)) -> Forall2 R l l' -> Forall2 Q (map f l) (map g l').
Proof. intros H. induction 1; cbn; constructor; auto. Qed.
Lemma refl2 {A} (R : A -> A -> Prop) l : (forall a, R a a) -> Forall2 R l l.
Proof. intros H. induction l; constructor; auto. Qed.
Lemma eq2 {A} (l l' : list A) : Forall2 eq l l' -> l = l'.
Proof. induction 1; congruence. Qed.
Lemma map_same2 {A B} (f g : A -> B) (Q : B -> B -> Prop) l : (forall a, Q (f a) (g a)) -> Forall2 Q (map f l) (map g l).
Proof. intros H. induction l; cbn; constructor; auto. Qed.
Lemma combine2 {A A' B B'} (R : A -> A' -> Prop) (Q : B -> B' -> Prop) l l' k k' :
  Forall2 R l l' -> Forall2 Q k k' -> Forall2 (fun p q => R (fst p) (fst q) /\ Q (snd p) (snd q)) (combine l k) (combine l' k').
Proof. intros H. revert k k'. induction H; intros k k' K; [constructor|]. destruct K; cbn; constructor; auto. Qed.
Lemma filter2 {A B} (R : A -> B -> Prop) p q l l' : (forall a b, R a b -> p a = q b) -> Forall2 R l l' -> Forall2 R (filter p l) (filter q l').
Proof. intros H. induction 1 as [|a b l l' K L IH]; cbn; [constructor|]. rewrite (H a b K). destruct (q b); [constructor|]; auto. Qed.
Lemma app2' {A B} (R : A -> B -> Prop) l l' k k' : Forall2 R l l' -> Forall2 R k k' -> Forall2 R (l ++ k) (l' ++ k').
Proof. intros H K. induction H; cbn; [assumption|constructor; auto]. Qed.

Lemma getn2 {A} (R : A -> A -> Prop) l l' n : Forall2 R l l' -> alike R (getn l n) (getn l' n).
Proof. intros H. unfold getn. revert n. induction H; intros [|n]; cbn; auto. Qed.
Lemma getz2 {A} (R : A -> A -> Prop) l l' z : Forall2 R l l' -> alike R (getz l z) (getz l' z).
Proof.
  intros H. unfold getz. rewrite (len2 _ _ _ H). cbn zeta. assert (forall i, alike R (if (i <? 0)%Z then Raise IndexError else getn l (Z.to_nat i)) (if (i <? 0)%Z then Raise IndexError else getn l' (Z.to_nat i))) as G
    by (intros i; destruct (i <? 0)%Z; [reflexivity|now apply getn2]).
  exact (G (if (z <? 0)%Z then (z + Z.of_nat (length l))%Z else z)).
Qed.
Lemma mapM2 {A B C} (R : A -> B -> Prop) (Q : C -> C -> Prop) f g l l' :
  (forall a b, R a b -> alike Q (f a) (g b)) -> Forall2 R l l' -> alike (Forall2 Q) (mapM f l) (mapM g l').
Proof.
  intros H. induction 1 as [|a b l l' K L IH]; cbn; [constructor|]. apply alike_bind with (R := Q); [auto|]. intros c d CD.
  apply alike_bind with (R := Forall2 Q); [exact IH|]. intros cs ds CDS. cbn. constructor; assumption.
Qed.
Lemma take2 {A} (R : A -> A -> Prop) l l' ind : Forall2 R l l' -> alike (Forall2 R) (take l ind) (take l' ind).
Proof. intros H. unfold take. apply (mapM2 eq R); [|apply refl2; auto]. intros a b <-. now apply getn2. Qed.
Lemma takez2 {A} (R : A -> A -> Prop) l l' ind : Forall2 R l l' -> alike (Forall2 R) (takez l ind) (takez l' ind).
Proof. intros H. unfold takez. apply (mapM2 eq R); [|apply refl2; auto]. intros a b <-. now apply getz2. Qed.
Lemma vzip2 {A B C} (R : A -> A -> Prop) (Q : B -> B -> Prop) (T : C -> C -> Prop) f g l l' k k' :
  (forall a a' b b', R a a' -> Q b b' -> T (f a b) (g a' b')) -> Forall2 R l l' -> Forall2 Q k k' -> alike (Forall2 T) (vzip f l k) (vzip g l' k').
Proof.
  intros H HL HK. unfold vzip. rewrite (len2 _ _ _ HL), (len2 _ _ _ HK). destruct (Nat.eqb _ _).
  - cbn. eapply map2; [|apply (combine2 R Q); eassumption]. intros [a b] [a' b'] [X Y]. cbn in *. auto.
  - destruct HL as [|a a' l l' Ha [|? ? ? ? ? ?]]; destruct HK as [|b b' k k' Hb [|? ? ? ? ? ?]]; cbn; try reflexivity;
    repeat match goal with H : Forall2 _ _ _ |- _ => revert H end; intros; repeat (constructor; auto);
    match goal with |- Forall2 _ (map _ ?x) (map _ ?y) => eapply map2; [|eassumption]; cbn; auto end.
Qed.

Lemma fsum2 l l' : opps l l' -> opp (fsum l) (fsum l').
Proof.
  unfold fsum. intros H. assert (opp fzero fzero) as Z by apply opp_zero. revert Z. generalize fzero at 1 3 as a. generalize fzero as a'.
  induction H as [|x y l l' X L IH]; intros a' a Z; cbn; [exact Z|]. apply IH. now apply fadd_opp.
Qed.
Lemma bincount2 idx w w' n : opps w w' -> alike opps (bincount_w64 idx w n) (bincount_w64 idx w' n).
Proof.
  intros H. unfold bincount_w64. rewrite (len2 _ _ _ H). destruct (negb _); [reflexivity|]. destruct (existsb _ _); [reflexivity|].
  cbn. apply map_same2. intros k. apply fsum2.
  eapply (map2 (fun p q => fst p = fst q /\ opp (snd p) (snd q))); [tauto|]. apply filter2; [intros ? ? [-> _]; reflexivity|].
  apply (combine2 eq opp); [apply refl2; reflexivity|exact H].
Qed.
Lemma opp_nan : opp fnan fnan.
Proof. now left. Qed.
Lemma divide2 c a a' n : opps a a' -> opps (divide_where64 c a n) (divide_where64 c a' n).
Proof.
  intros H. unfold divide_where64. eapply map2; [|apply (combine2 opp eq); [exact H|apply refl2; reflexivity]].
  intros [x k] [x' k'] [X <-]. cbn in *. destruct (c k); [now apply fdiv_opp|apply opp_nan].
Qed.

Lemma bin_effect2 xs es es' l : opps es es' ->
  alike (fun p q => opps (fst p) (fst q) /\ snd p = snd q) (compute_bin_effect64 xs es l) (compute_bin_effect64 xs es' l).
Proof.
  intros H. unfold compute_bin_effect64. apply alike_bind_eq. intros idx _. cbn zeta.
  apply alike_bind with (R := opps); [now apply bincount2|]. intros a a' A. apply alike_bind_eq. intros pp _. cbn. split; [now apply divide2|reflexivity].
Qed.
Lemma bin_variance2 xs es es' l be be' : opps es es' -> opps be be' -> compute_bin_variance64 xs es' l be' = compute_bin_variance64 xs es l be.
Proof.
  intros H B. symmetry. apply alike_eq. unfold compute_bin_variance64. apply alike_bind_eq. intros idx _.
  apply alike_bind with (R := opps); [now apply takez2|]. intros m m' M.
  apply alike_bind with (R := Forall2 eq); [|intros a a' A; apply eq2 in A as <-; apply alike_refl; auto].
  apply (vzip2 opp opp eq); [|exact H|exact M]. intros. symmetry. apply fmul_same. now apply fsub_opp.
Qed.

Notation pts2 := (Forall2 (fun p q : b64 * b64 => fst p = fst q /\ opp (snd p) (snd q))).
Lemma valid_points2 x x' : opps x x' -> forall i, pts2 (valid_points64 i x) (valid_points64 i x').
Proof.
  induction 1 as [|a b x x' A X IH]; intros i; cbn; [constructor|]. rewrite (opp_is_nan _ _ A). destruct (is_nan a); [apply IH|constructor; [split; [reflexivity|exact A]|apply IH]].
Qed.
Lemma interp_step2 x0 f0 f0' x1 f1 f1' x : opp f0 f0' -> opp f1 f1' -> opp (interp_step64 x0 f0 x1 f1 x) (interp_step64 x0 f0' x1 f1' x).
Proof.
  intros A B. unfold interp_step64. destruct (Beqb x0 x); [exact A|]. cbn zeta.
  assert (opp (fdiv (fsub f1 f0) (fsub x1 x0)) (fdiv (fsub f1' f0') (fsub x1 x0))) as SL by (apply fdiv_opp; now apply fsub_opp).
  set (s := fdiv (fsub f1 f0) (fsub x1 x0)) in *. set (s' := fdiv (fsub f1' f0') (fsub x1 x0)) in *.
  assert (opp (fadd (fmul s (fsub x x0)) f0) (fadd (fmul s' (fsub x x0)) f0')) as P by (apply fadd_opp; [now apply fmul_opp|exact A]).
  assert (opp (fadd (fmul s (fsub x x1)) f1) (fadd (fmul s' (fsub x x1)) f1')) as Q by (apply fadd_opp; [now apply fmul_opp|exact B]).
  rewrite (opp_is_nan _ _ P), (opp_is_nan _ _ Q), (Beqb_opp _ _ _ _ A B).
  destruct (is_nan (fadd (fmul s (fsub x x0)) f0)); [|exact P]. destruct (_ && _)%bool; [exact A|exact Q].
Qed.
Lemma interp_from2 pts pts' x : pts2 pts pts' -> forall x0 f0 f0', opp f0 f0' -> opp (interp_from64 x0 f0 pts x) (interp_from64 x0 f0' pts' x).
Proof.
  induction 1 as [|[x1 f1] [x1' f1'] pts pts' [E F] P IH]; intros x0 f0 f0' A; cbn [interp_from64]; [exact A|]. cbn in E, F. subst x1'.
  destruct (Bltb x x1); [now apply interp_step2|now apply IH].
Qed.
Lemma interp2 pts pts' x : pts2 pts pts' -> alike opp (interp64 pts x) (interp64 pts' x).
Proof.
  intros [|[x0 f0] [x0' f0'] l l' [E F] P]; [reflexivity|]. cbn [fst snd] in E, F. subst x0'. cbn [interp64].
  destruct (Bltb x x0); cbn [alike]; [exact F|now apply interp_from2].
Qed.
Lemma fill_nans2 x x' : opps x x' -> alike opps (fill_nans64 x) (fill_nans64 x').
Proof.
  intros H. unfold fill_nans64. pose proof (valid_points2 x x' H 0) as V. pose proof (fun t => interp2 _ _ t V) as I.
  rewrite (len2 _ _ _ H).
  assert (alike opps (mapM (fun p => if is_nan (snd p) then interp64 (valid_points64 0 x) (fofn (fst p)) else Ok (snd p)) (combine (seq 0 (length x)) x))
                     (mapM (fun p => if is_nan (snd p) then interp64 (valid_points64 0 x') (fofn (fst p)) else Ok (snd p)) (combine (seq 0 (length x)) x'))) as M.
  { eapply mapM2; [|apply (combine2 eq opp); [apply refl2; reflexivity|exact H]]. intros [i a] [i' a'] [<- A]. cbn [fst snd] in *.
    rewrite (opp_is_nan _ _ A). destruct (is_nan a); [apply I|exact A]. }
  clear I. destruct V; [reflexivity|exact M].
Qed.

(** a fitted feature: the same limits, widths, counts and variances, negated effects *)
Definition negated_params (p q : params64) : Prop :=
  p64_limits q = p64_limits p /\ p64_dx q = p64_dx p /\ p64_points q = p64_points p /\ opps (p64_effect p) (p64_effect q) /\ p64_var q = p64_var p /\ p64_est q = p64_est p.
Lemma ale_params2 xs es es' l : opps es es' -> alike negated_params (compute_ale_params64 xs es l) (compute_ale_params64 xs es' l).
Proof.
  intros H. unfold compute_ale_params64. cbn zeta. apply alike_bind with (R := fun p q => opps (fst p) (fst q) /\ snd p = snd q); [now apply bin_effect2|].
  intros [be n] [be' n'] [B N]. cbn [fst snd] in B, N. subst n'. rewrite (bin_variance2 xs es es' l be be' H B). apply alike_bind_eq. intros [bv bev] _.
  apply alike_bind with (R := opps); [now apply fill_nans2|]. intros e e' E. apply alike_bind_eq. intros v _. apply alike_bind_eq. intros w _.
  cbn. unfold negated_params. cbn. auto 10.
Qed.
Lemma local_effects2 X model model' l f : (forall Y, opps (model Y) (model' Y)) ->
  fst (compute_local_effects64 X model' l f) = fst (compute_local_effects64 X model l f) /\
  alike opps (snd (compute_local_effects64 X model l f)) (snd (compute_local_effects64 X model' l f)).
Proof.
  intros H. unfold compute_local_effects64. destruct (l0 <- getn l 0 ;; _); [|split; reflexivity]. cbn [fst snd]. split; [reflexivity|].
  apply alike_bind_eq. intros ind _. apply alike_bind_eq. intros _ _. apply alike_bind_eq. intros r _. apply alike_bind_eq. intros q _.
  apply alike_bind_eq. intros l0 _. apply alike_bind_eq. intros l1 _. cbn zeta.
  apply alike_bind with (R := opps); [apply (vzip2 opp opp opp); [intros; now apply fsub_opp|apply H|apply H]|]. intros d d' D. cbn.
  eapply map2; [|exact D]. intros; now apply fdiv_opp.
Qed.
Lemma ale_fit2 X model model' lo hi f n m c : (forall Y, opps (model Y) (model' Y)) ->
  alike negated_params (ale_fit_feature64 X model lo hi f n m c) (ale_fit_feature64 X model' lo hi f n m c).
Proof.
  intros H. unfold ale_fit_feature64. cbn zeta. apply alike_bind_eq. intros [l|] _; [|reflexivity].
  set (d := filter (in_range64 lo hi f) X). destruct (local_effects2 d model model' l f H) as [E A].
  destruct (compute_local_effects64 d model l f) as [l1 r1], (compute_local_effects64 d model' l f) as [l2 r2]. cbn [fst snd] in E, A. subst l2.
  apply alike_bind with (R := opps); [exact A|]. intros es es' ES. now apply ale_params2.
Qed.
Lemma cumsum_from2 l l' : opps l l' -> forall a a', opp a a' -> opps (cumsum_from64 a l) (cumsum_from64 a' l').
Proof. induction 1 as [|x y l l' X L IH]; intros a a' A; cbn; constructor; [now apply fadd_opp|]. apply IH. now apply fadd_opp. Qed.
Lemma cumsum2 l l' : opps l l' -> opps (cumsum64 l) (cumsum64 l').
Proof. destruct 1; cbn; constructor; auto. now apply cumsum_from2. Qed.
Lemma accumulated2 xs l be be' dx : opps be be' ->
  alike opps (compute_accumulated_effect64 xs l be dx false) (compute_accumulated_effect64 xs l be' dx false).
Proof.
  intros H. unfold compute_accumulated_effect64. cbn [andb]. apply alike_bind_eq. intros ind _.
  apply alike_bind with (R := opps); [apply (vzip2 opp eq opp); [intros; subst; now apply fmul_opp|exact H|apply refl2; reflexivity]|]. intros pr pr' P.
  apply alike_bind with (R := opps); [apply take2; constructor; [apply opp_zero|constructor; [apply opp_zero|now apply cumsum2]]|]. intros fb fb' FB.
  apply alike_bind_eq. intros l0 _. apply alike_bind_eq. intros left _. cbn zeta.
  apply alike_bind with (R := opp); [now apply getz2|]. intros bl bl' BL.
  apply alike_bind with (R := opps); [apply take2; constructor; [apply opp_zero|apply app2'; [exact H|constructor; [exact BL|constructor]]]|]. intros ef ef' EF. cbn [alike].
  eapply map2; [|apply (combine2 opp); [exact FB|apply (combine2 eq opp); [apply refl2; reflexivity|exact EF]]].
  intros [a [d e]] [a' [d' e']] [A [D E]]. cbn [fst snd] in *. subst d'. apply fadd_opp; [exact A|now apply fmul_opp_r].
Qed.
