(** FloatAsk: columns the model does not read, the position of the columns and the batch of positions, in binary64. *)
From Coq Require Import Reals.
From Flocq Require Import Core.
From Flocq Require Import IEEE754.BinarySingleNaN.
From Verif Require Import Base Numpy Utils FloatModel FloatMean FloatVar FloatDer FloatPDP FloatAdapt FloatRegion FloatRegionPDP FloatRegionALE FloatOpp FloatOppALE FloatOppAll FloatRegionPDPProofs.
Open Scope nat_scope.

(** ** rows that carry the same information for a feature *)
(** [R r r']: the rows r and r' of two datasets agree on the feature (column f of one, column f' of the other), and replacing
    the feature by any value leaves them related. *)
Definition carries (f f' : nat) (R : list b64 -> list b64 -> Prop) : Prop :=
  forall r r', R r r' -> nth f r fnan = nth f' r' fnan /\ forall v, R (list_set r f v) (list_set r' f' v).
(** the two models agree on datasets whose rows are related *)
Definition same_answers (R : list b64 -> list b64 -> Prop) (m m' : list (list b64) -> list b64) : Prop :=
  forall Y Y', Forall2 R Y Y' -> m Y = m' Y'.

Section Rows.
  Variables (f f' : nat) (R : list b64 -> list b64 -> Prop).
  Hypothesis C : carries f f' R.
  Lemma col_rel X X' : Forall2 R X X' -> col64 X f = col64 X' f'.
  Proof. intros H. unfold col64. apply eq2. eapply map2; [|exact H]. intros r r' Q. apply (C r r' Q). Qed.
  Lemma set_col_rel X X' : Forall2 R X X' -> forall vs, Forall2 R (set_col64 X f vs) (set_col64 X' f' vs).
  Proof.
    intros H vs. unfold set_col64. eapply map2; [|apply (combine2 R eq); [exact H|apply refl2; reflexivity]].
    intros [r v] [r' v'] [Q E]. cbn [fst snd] in *. subst v'. apply (C r r' Q).
  Qed.
  Lemma kept_rel X X' lo hi : Forall2 R X X' -> Forall2 R (filter (in_range64 lo hi f) X) (filter (in_range64 lo hi f') X').
  Proof. apply filter2. intros r r' Q. unfold in_range64. now rewrite (proj1 (C r r' Q)). Qed.
  Lemma local_rel X X' m m' l : Forall2 R X X' -> same_answers R m m' -> compute_local_effects64 X m l f = compute_local_effects64 X' m' l f'.
  Proof.
    intros H A. unfold compute_local_effects64. rewrite (col_rel X X' H). destruct (l0 <- getn l 0 ;; _); [|reflexivity]. f_equal.
    destruct (digitize64 _ _) as [ind|]; [|reflexivity]. cbn [bind]. destruct (assert_ _); [|reflexivity]. cbn [bind].
    destruct (take _ ind) as [u|]; [|reflexivity]. cbn [bind]. destruct (take _ (map Nat.pred ind)) as [v|]; [|reflexivity]. cbn [bind].
    rewrite (A _ _ (set_col_rel X X' H u)), (A _ _ (set_col_rel X X' H v)). reflexivity.
  Qed.
  Lemma ale_rel X X' m m' lo hi nof mp cat : Forall2 R X X' -> same_answers R m m' -> ale_fit_feature64 X m lo hi f nof mp cat = ale_fit_feature64 X' m' lo hi f' nof mp cat.
  Proof.
    intros H A. unfold ale_fit_feature64. cbn zeta. pose proof (kept_rel X X' lo hi H) as K. rewrite (col_rel _ _ K).
    destruct (fixed_find64 _ _ _ _ _ _) as [[l|]|]; [|reflexivity|reflexivity]. cbn [bind]. rewrite (local_rel _ _ m m' l K A). reflexivity.
  Qed.
  (** the effects: row i of E and of E' agree on the feature *)
  Lemma rhale_rel var X X' E E' lo hi b : Forall2 R X X' -> Forall2 (fun e e' => nth f e fnan = nth f' e' fnan) E E' ->
    rhale_fit_feature64 var X E lo hi f b = rhale_fit_feature64 var X' E' lo hi f' b.
  Proof.
    intros H HE. unfold rhale_fit_feature64. cbn zeta.
    set (p := fun q : list b64 * list b64 => in_range64 lo hi f (fst q)). set (p' := fun q : list b64 * list b64 => in_range64 lo hi f' (fst q)).
    assert (Forall2 (fun q r => R (fst q) (fst r) /\ nth f (snd q) fnan = nth f' (snd r) fnan) (filter p (combine X E)) (filter p' (combine X' E'))) as D.
    { apply filter2; [|apply (combine2 R (fun e e' => nth f e fnan = nth f' e' fnan)); assumption]. intros q r [Q _]. unfold p, p', in_range64. now rewrite (proj1 (C _ _ Q)). }
    assert (col64 (map fst (filter p (combine X E))) f = col64 (map fst (filter p' (combine X' E'))) f') as E1.
    { apply col_rel. eapply map2; [|exact D]. tauto. }
    assert (col64 (map snd (filter p (combine X E))) f = col64 (map snd (filter p' (combine X' E'))) f') as E2.
    { unfold col64. rewrite !map_map. apply eq2. eapply map2; [|exact D]. cbn. tauto. }
    rewrite E1, E2. reflexivity.
  Qed.
  Lemma limits_rel X X' : Forall2 R X X' -> axis_limits64 X f = axis_limits64 X' f'.
  Proof. intros H. unfold axis_limits64. now rewrite (col_rel X X' H). Qed.

  (** ** PDP *)
  (** what two objects average agrees on related rows *)
  Definition same_target (m m' : target64) : Prop :=
    match m, m' with
    | Outputs g, Outputs g' | Differences g, Differences g' => forall r r', R r r' -> g r = g' r'
    | Jacobian J, Jacobian J' => forall r r', R r r' -> nth f (J r) fnan = nth f' (J' r') fnan
    | _, _ => False
    end.
  Lemma ice_rel m m' r r' x : same_target m m' -> R r r' -> ice64 m f r x = ice64 m' f' r' x.
  Proof.
    intros H Q. destruct (C r r' Q) as [_ S'].
    destruct m, m'; cbn in *; try contradiction; [now apply H|now apply H|]. rewrite (H _ _ (S' (fadd x H64))), (H _ _ (S' (fsub x H64))). reflexivity.
  Qed.
  Variables (p p' : pdp64).
  Hypotheses (Ef : p64_feature p = f) (Ef' : p64_feature p' = f') (HT : same_target (p64_target p) (p64_target p')) (HX : Forall2 R (p64_rows p) (p64_rows p'))
    (Hlo : p64_lo p' = p64_lo p) (Hhi : p64_hi p' = p64_hi p) (Hpt : FloatPDP.p64_points p' = FloatPDP.p64_points p)
    (H0 : p64_axis0 p' = p64_axis0 p) (H1 : p64_axis1 p' = p64_axis1 p).
  Lemma kept_pdp : Forall2 R (kept64 p) (kept64 p').
  Proof. unfold kept64. rewrite Ef, Ef', Hlo, Hhi. now apply kept_rel. Qed.
  Lemma predict_rel xs : predict64 p xs = predict64 p' xs.
  Proof.
    unfold predict64. apply map_ext. intros x. apply eq2. eapply map2; [|exact kept_pdp]. intros r r' Q. rewrite Ef, Ef'. now apply ice_rel.
  Qed.
  Lemma norm_rel c : FloatPDP.norm_const64 p c = FloatPDP.norm_const64 p' c.
  Proof.
    destruct c; cbn [FloatPDP.norm_const64]; [reflexivity| |]; rewrite !Hlo, predict_rel; [|reflexivity].
    rewrite Hhi, Hpt, H0, (len2 _ _ _ kept_pdp). reflexivity.
  Qed.
  Lemma pdp_rel c xs : pdp_eval64 p c xs = pdp_eval64 p' c xs.
  Proof.
    unfold pdp_eval64. rewrite Hlo, Hhi, H1. destruct (assert_ _); [|reflexivity]. cbn [bind]. cbn zeta.
    assert (centered64 p c xs = centered64 p' c xs) as ->; [|reflexivity]. unfold centered64. now rewrite norm_rel, predict_rel.
  Qed.
End Rows.

(** ** the batch of positions *)
(** Evaluating many positions at once is evaluating each: the batch returns exactly when every position alone returns, and gives the
    same float64 numbers. *)
Definition pointwise (F : list b64 -> res (list b64 * list b64)) : Prop :=
  forall xs ys zs, xs <> [] ->
    (F xs = Ok (ys, zs) <->
     length ys = length xs /\ length zs = length xs /\
     forall i, (i < length xs)%nat -> F [nth i xs fnan] = Ok ([nth i ys fnan], [nth i zs fnan])).

Lemma mapM_iff {A B} (h : A -> res B) l r : mapM h l = Ok r <-> Forall2 (fun a b => h a = Ok b) l r.
Proof.
  revert r. induction l as [|a l IH]; intros r; cbn [mapM].
  - split; [intros E; apply ok_inj in E; subst r; constructor|intros H; inversion H; reflexivity].
  - split.
    + intros E. apply bind_ok in E as (b & Hb & E). apply bind_ok in E as (bs & Hbs & E). apply ok_inj in E. subst r. constructor; [exact Hb|now apply IH].
    + intros H. inversion H as [|? b ? bs Hb Hbs]; subst. rewrite Hb. cbn [bind]. apply IH in Hbs. rewrite Hbs. reflexivity.
Qed.
Lemma forall2_nth {A B} (R : A -> B -> Prop) l r a b : Forall2 R l r <-> length r = length l /\ forall i, (i < length l)%nat -> R (nth i l a) (nth i r b).
Proof.
  split.
  - intros H. split; [now apply len2 in H|]. induction H as [|x y l r X H IH]; intros i Hi; cbn in Hi; [lia|]. destruct i; cbn; [exact X|apply IH; lia].
  - revert r. induction l as [|x l IH]; intros [|y r] [L H]; cbn in L; try discriminate L; constructor.
    + apply (H 0%nat). cbn. lia.
    + apply IH. split; [lia|]. intros i Hi. apply (H (S i)). cbn. lia.
Qed.

Section Acc.
  Variables (l be dx : list b64) (square : bool).
  Definition acc_const : res ((b64 -> nat) * list b64 * b64 * b64) :=
    dig <- (if mono_incr64 l then Ok (digitize64_1 l) else if mono_decr64 l then Ok (digitize64_1d l) else Raise ValueError) ;;
    prod <- vzip (fun e d => if square then fmul e (fmul d d) else fmul e d) be dx ;;
    l0 <- getn l 0 ;; bl <- getz be (-1) ;; Ok (dig, prod, l0, bl).
  Definition acc_delta (x lf : b64) : b64 :=
    let d := let d := fsub x lf in if Bltb d fzero then fzero else d in if square then fmul d d else d.
  Definition acc_at (c : (b64 -> nat) * list b64 * b64 * b64) (x : b64) : res b64 :=
    let '(dig, prod, l0, bl) := c in
    a <- getn (fzero :: fzero :: cumsum64 prod) (dig x) ;; lf <- getn (l0 :: init_ l ++ [BIGM64]) (dig x) ;;
    e <- getn (fzero :: be ++ [bl]) (dig x) ;; Ok (fadd a (fmul (acc_delta x lf) e)).
End Acc.
  Lemma acc_iff l be dx (square : bool) xs ys : compute_accumulated_effect64 xs l be dx square = Ok ys <-> exists c, acc_const l be dx square = Ok c /\ Forall2 (fun x y => acc_at l be square c x = Ok y) xs ys.
  Proof.
    unfold compute_accumulated_effect64, acc_const, digitize64. split.
    - intros H. apply bind_ok in H as (ind & HI & H). apply bind_ok in H as (pr & HP & H). apply bind_ok in H as (fb & HF & H). apply bind_ok in H as (l0 & HL & H).
      apply bind_ok in H as (lf & HLF & H). cbn zeta in H. apply bind_ok in H as (bl & HB & H). apply bind_ok in H as (ef & HE & H). apply ok_inj in H.
      assert (exists dig, (if mono_incr64 l then Ok (digitize64_1 l) else if mono_decr64 l then Ok (digitize64_1d l) else Raise ValueError) = Ok dig /\ ind = map dig xs) as (dig & HD & ->).
      { destruct (mono_incr64 l); [|destruct (mono_decr64 l); [|discriminate HI]]; apply ok_inj in HI; subst ind; eauto. }
      exists (dig, pr, l0, bl). rewrite HD. cbn [bind]. rewrite HP. cbn [bind]. rewrite HL. cbn [bind]. rewrite HB. split; [reflexivity|]. clear HI HD HP HL HB.
      apply mapM_iff in HF, HLF, HE. revert fb lf ef ys HF HLF HE H. induction xs as [|x xs IH]; intros fb lf ef ys HF HLF HE H.
      + inversion HF; subst. constructor.
      + cbn [map] in HF, HLF, HE. inversion HF as [|? a ? fb' Ha HF']; subst. inversion HLF as [|? b ? lf' Hb HLF']; subst. inversion HE as [|? e ? ef' He HE']; subst.
        destruct square; cbn [combine map fst snd]; (constructor; [unfold acc_at, acc_delta; rewrite Ha, Hb, He; reflexivity|apply (IH fb' lf' ef'); auto]).
    - intros ([[[dig pr] l0] bl] & HC & H). apply bind_ok in HC as (dig' & HD & HC). apply bind_ok in HC as (pr' & HP & HC). apply bind_ok in HC as (l0' & HL & HC). apply bind_ok in HC as (bl' & HB & HC).
      apply ok_inj in HC. assert (dig' = dig /\ pr' = pr /\ l0' = l0 /\ bl' = bl) as (-> & -> & -> & ->) by (repeat split; congruence). clear HC.
      assert (E : (if mono_incr64 l then Ok (map (digitize64_1 l) xs) else if mono_decr64 l then Ok (map (digitize64_1d l) xs) else Raise ValueError) = Ok (map dig xs)).
      { destruct (mono_incr64 l); [|destruct (mono_decr64 l); [|discriminate HD]]; apply ok_inj in HD; now subst dig. }
      rewrite E. cbn [bind]. rewrite HP. cbn [bind]. rewrite HL. cbn [bind]. rewrite HB.
      assert (exists fb lf ef, take (fzero :: fzero :: cumsum64 pr) (map dig xs) = Ok fb /\ take (l0 :: init_ l ++ [BIGM64]) (map dig xs) = Ok lf /\ take (fzero :: be ++ [bl]) (map dig xs) = Ok ef /\
              ys = map (fun p => fadd (fst p) (fmul (fst (snd p)) (snd (snd p)))) (combine fb (combine (map (fun p => acc_delta square (fst p) (snd p)) (combine xs lf)) ef))) as (fb & lf & ef & A1 & A2 & A3 & ->).
      { clear E HD. induction H as [|x y xs ys X H IH]; [exists [], [], []; auto|]. destruct IH as (fb & lf & ef & A1 & A2 & A3 & ->). unfold acc_at in X.
        apply bind_ok in X as (a & Xa & X). apply bind_ok in X as (b & Xb & X). apply bind_ok in X as (e & Xe & X). apply ok_inj in X. subst y.
        exists (a :: fb), (b :: lf), (e :: ef). unfold take in *. cbn [map mapM]. rewrite Xa, Xb, Xe, A1, A2, A3. cbn [bind]. auto. }
      rewrite A1. cbn [bind]. rewrite A2. cbn [bind]. cbn zeta. rewrite A3. cbn [bind]. f_equal. f_equal. f_equal. f_equal. unfold acc_delta. destruct square; [rewrite map_map|]; reflexivity.
  Qed.

Lemma forall2_single {A B} (R : A -> B -> Prop) a b : Forall2 R [a] [b] <-> R a b.
Proof. split; [intros H; now inversion H|intros H; constructor; [exact H|constructor]]. Qed.

Lemma pointwise_of (F : list b64 -> res (list b64 * list b64)) (P : Prop) (h k : b64 -> b64 -> Prop) :
  (forall xs ys zs, F xs = Ok (ys, zs) <-> P /\ Forall2 h xs ys /\ Forall2 k xs zs) -> pointwise F.
Proof.
  intros H xs ys zs N. rewrite H. rewrite (forall2_nth h xs ys fnan fnan), (forall2_nth k xs zs fnan fnan). split.
  - intros (HP & (L1 & A) & (L2 & B)). split; [exact L1|]. split; [exact L2|]. intros i Hi. apply H. rewrite !forall2_single. auto.
  - intros (L1 & L2 & A). assert (B : forall i, (i < length xs)%nat -> P /\ h (nth i xs fnan) (nth i ys fnan) /\ k (nth i xs fnan) (nth i zs fnan)).
    { intros i Hi. specialize (A i Hi). apply H in A. now rewrite !forall2_single in A. }
    split; [apply (B 0%nat); destruct xs; [congruence|cbn; lia]|]. split; (split; [assumption|]); intros i Hi; apply B, Hi.
Qed.
Lemma forall2_map_r {A B C} (R : A -> C -> Prop) (u : B -> C) l r : Forall2 (fun a b => R a (u b)) l r <-> Forall2 R l (map u r).
Proof.
  split; [induction 1; constructor; auto|]. revert r. induction l as [|a l IH]; intros [|b r] H; inversion H; subst; constructor; auto.
Qed.

Lemma pointwise_never (F : list b64 -> res (list b64 * list b64)) : (forall xs r, F xs <> Ok r) -> pointwise F.
Proof.
  intros H xs ys zs N. split; [intros E; now apply H in E|]. intros (_ & _ & A). specialize (A 0%nat ltac:(destruct xs; [congruence|cbn; lia])). now apply H in A.
Qed.
Definition shift (k : option b64) (y : b64) : b64 := match k with None => y | Some c => fsub y c end.
Lemma forall2_impl {A B} (R Q : A -> B -> Prop) l r : (forall a b, R a b -> Q a b) -> Forall2 R l r -> Forall2 Q l r.
Proof. intros H. induction 1; constructor; auto. Qed.
Lemma ale_pointwise mean c p lo hi : pointwise (ale_eval64 mean c p lo hi).
Proof.
  destruct (norm_const64 mean c p lo hi) as [k|e] eqn:EK.
  2:{ apply pointwise_never. intros xs r. unfold ale_eval64. rewrite EK. discriminate. }
  destruct (Bltb lo hi) eqn:LT.
  2:{ apply pointwise_never. intros xs r. unfold ale_eval64. rewrite EK, LT. discriminate. }
  destruct (acc_const (p64_limits p) (p64_effect p) (p64_dx p) false) as [c0|e] eqn:E0.
  2:{ apply pointwise_never. intros xs r. unfold ale_eval64. rewrite EK, LT. cbn [bind assert_]. unfold eval64, eval_unnorm64. intros H. apply bind_ok in H as (ys & H & _). apply bind_ok in H as (y & H & _).
      apply acc_iff in H as (? & H & _). rewrite E0 in H. discriminate H. }
  destruct (acc_const (p64_limits p) (map fsqrt (p64_var p)) (p64_dx p) false) as [c1|e] eqn:E1.
  2:{ apply pointwise_never. intros xs r. unfold ale_eval64. rewrite EK, LT. cbn [bind assert_]. intros H. apply bind_ok in H as (ys & _ & H). apply bind_ok in H as (zs & H & _). unfold eval_std64 in H.
      apply acc_iff in H as (? & H & _). rewrite E1 in H. discriminate H. }
  apply (pointwise_of _ True (fun x y => exists y0, acc_at (p64_limits p) (p64_effect p) false c0 x = Ok y0 /\ shift k y0 = y) (fun x z => acc_at (p64_limits p) (map fsqrt (p64_var p)) false c1 x = Ok z)).
  intros xs ys zs. unfold ale_eval64. rewrite EK, LT. cbn [bind assert_]. unfold eval64, eval_unnorm64, eval_std64.
  assert (EM : forall y0, match k with None => y0 | Some c => map (fun y => fsub y c) y0 end = map (shift k) y0) by (intros; destruct k; [reflexivity|symmetry; apply map_id]).
  split.
  - intros H. apply bind_ok in H as (ys' & HY & H). apply bind_ok in H as (zs' & HZ & H). apply ok_inj in H. assert (ys' = ys /\ zs' = zs) as [-> ->] by (split; congruence). clear H.
    apply bind_ok in HY as (y0 & HY & H). apply ok_inj in H. rewrite EM in H. subst ys.
    apply acc_iff in HY as (c0' & A0 & HY). rewrite E0 in A0. apply ok_inj in A0. subst c0'. apply acc_iff in HZ as (c1' & A1 & HZ). rewrite E1 in A1. apply ok_inj in A1. subst c1'.
    split; [exact I|]. split; [|exact HZ]. apply forall2_map_r. eapply forall2_impl; [|exact HY]. intros a b X. exists b. split; [exact X|reflexivity].
  - intros (_ & HY & HZ). assert (exists y0, Forall2 (fun x y => acc_at (p64_limits p) (p64_effect p) false c0 x = Ok y) xs y0 /\ ys = map (shift k) y0) as (y0 & HY0 & ->).
    { clear HZ. induction HY as [|x y xs ys (y0 & X & <-) HY (l0 & IH & ->)]; [exists []; split; [constructor|reflexivity]|]. exists (y0 :: l0). split; [constructor; auto|reflexivity]. }
    rewrite (proj2 (acc_iff _ _ _ _ xs y0) (ex_intro _ c0 (conj E0 HY0))). cbn [bind].
    rewrite (proj2 (acc_iff _ _ _ _ xs zs) (ex_intro _ c1 (conj E1 HZ))). cbn [bind]. now rewrite EM.
Qed.
Lemma pdp_pointwise p c : pointwise (pdp_eval64 p c).
Proof.
  destruct (Bltb (p64_lo p) (p64_hi p)) eqn:LT.
  2:{ apply pointwise_never. intros xs r. unfold pdp_eval64. rewrite LT. discriminate. }
  set (row := fun x => let y := map (fun r => ice64 (p64_target p) (p64_feature p) r x) (kept64 p) in
                       match FloatPDP.norm_const64 p c with Some ns => map (fun q => fsub (fst q) (snd q)) (combine y ns) | None => y end).
  assert (E : forall xs, centered64 p c xs = map row xs) by (intros xs; unfold centered64, predict64, row; destruct (FloatPDP.norm_const64 p c); [rewrite map_map|]; reflexivity).
  apply (pointwise_of _ True (fun x y => mean64 (p64_axis1 p) (row x) = y) (fun x z => std64 (p64_axis1 p) (row x) = z)).
  intros xs ys zs. unfold pdp_eval64. rewrite LT. cbn [assert_ bind]. cbn zeta. rewrite E, !map_map.
  assert (M : forall (F : b64 -> b64) (ys : list b64), Forall2 (fun x y => F x = y) xs ys <-> map F xs = ys).
  { intros F. induction xs as [|x xs IH]; intros [|y us]; cbn; split; intros H; try discriminate H; try constructor; inversion H; subst; auto.
    - f_equal. now apply IH. - now apply IH. }
  rewrite !M. split; [intros H; apply ok_inj in H; split; [exact I|split; congruence]|intros (_ & <- & <-); reflexivity].
Qed.
