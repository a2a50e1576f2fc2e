(** FloatRegionExt: the search depends on heter_func only through the parts of the data; what heter does with a constant feature. *)
From Coq Require Import Reals FunctionalExtensionality.
From Flocq Require Import Core.
From Flocq Require Import IEEE754.BinarySingleNaN.
From Verif Require Import Base Numpy NumpyFacts Utils FloatModel FloatFacts FloatGrid FloatBins FloatProofs FloatCat FloatAdapt FloatPDP FloatRegion FloatRegionProofs FloatRegionTop FloatRegionGuard FloatRegionPDPProofs FloatRegionALE.
From Coq Require Import Lra.
Open Scope R_scope.

Definition with_heter (g : regions64) (h : list row64 -> res b64) : regions64 :=
  mkRegions64 h (g64_sum g) (g64_rows g) (g64_type g) (g64_foc g) (g64_foc_types g) (g64_cat_limit g)
    (g64_min_points g) (g64_nof_splits g) (g64_max_levels g) (g64_thres g) (g64_small g) (g64_split_cat g).
Lemma search_same g h : (forall x, part_of (g64_rows g) x -> h x = g64_heter g x) -> subregions64 (with_heter g h) = subregions64 g.
Proof.
  intros H. rewrite <- (guard_subregions (with_heter g h)), <- (guard_subregions g). f_equal. unfold guard. cbn [with_heter g64_heter g64_sum g64_rows g64_type g64_foc g64_foc_types g64_cat_limit g64_min_points g64_nof_splits g64_max_levels g64_thres g64_small g64_split_cat].
  f_equal. apply functional_extensionality. intros x. destruct (part (g64_rows g) x) eqn:P; [|reflexivity]. apply H. now apply part_spec.
Qed.

(** ** a constant feature has no categorical bins *)
Lemma unique_const xs lo : fins xs -> (forall x, In x xs -> val x = val lo) -> (length (unique64 xs) <= 1)%nat.
Proof.
  intros F C. destruct (unique64_spec xs F) as (I & I1 & _). destruct (Nat.le_gt_cases (length (unique64 xs)) 1) as [L|L]; [exact L|exfalso].
  assert (H : val (nth 0 (unique64 xs) fnan) < val (nth 1 (unique64 xs) fnan)) by (apply incr_nth; auto).
  rewrite (C (nth 0 _ fnan)) in H by (apply I1, nth_In; lia). rewrite (C (nth 1 _ fnan)) in H by (apply I1, nth_In; lia). lra.
Qed.
Lemma cat_limits_short xs m : (length (unique64 xs) <= 1)%nat -> exists e, cat_limits64 xs m = Raise e.
Proof.
  intros L. unfold cat_limits64. destruct (unique64 xs) as [|x [|y u]]; [eexists; reflexivity|eexists; reflexivity|cbn in L; lia].
Qed.
Definition binning_cat (b : binning64) : nat := match b with BFixed _ _ cat | BGreedy _ _ _ cat | BDP _ _ _ cat => cat end.
Lemma find_const var xs es lo hi b : (length (unique64 xs) <= 1)%nat -> (1 <= binning_cat b)%nat -> find64 var xs es lo hi b = Ok None \/ exists e, find64 var xs es lo hi b = Raise e.
Proof.
  intros L C. destruct (cat_limits_short xs (match b with BFixed _ m _ | BGreedy _ _ m _ | BDP _ _ m _ => m end) L) as [e E].
  destruct b as [n m cat|n d m cat|K d m cat]; cbn [binning_cat find64] in *.
  - right. exists e. unfold fixed_find64. rewrite (proj2 (Nat.leb_le _ _)) by lia. exact E.
  - unfold greedy_find64. destruct (none_valid64 _ _); [now left|right]. exists e. rewrite (proj2 (Nat.leb_le _ _)) by lia. exact E.
  - unfold dp_find64. destruct (none_valid64 _ _); [now left|right]. exists e. rewrite (proj2 (Nat.leb_le _ _)) by lia. exact E.
Qed.
Lemma fins_incl (a b : list b64) : (forall x, In x a -> In x b) -> fins b -> fins a. Proof. intros I F x Hx. apply F, I, Hx. Qed.

Lemma combine_in {A B} (a : list A) : forall (b : list B) p, In p (combine a b) -> In (fst p) a.
Proof. intros b [x y] H. now apply in_combine_l in H. Qed.
Lemma rhale_const var X E lo hi f b : fins (col64 X f) -> (forall x, In x (col64 X f) -> val x = val lo) -> (1 <= binning_cat b)%nat -> exists e, rhale_fit_feature64 var X E lo hi f b = Raise e.
Proof.
  intros F C B. unfold rhale_fit_feature64. cbv zeta. set (d := filter _ _). assert (I : forall x, In x (col64 (map fst d) f) -> In x (col64 X f)).
  { intros x Hx. unfold col64 in *. rewrite map_map in Hx. apply in_map_iff in Hx as (p & <- & Hp). apply filter_In in Hp as [Hp _]. apply (in_map (fun r => nth f r fnan) X (fst p)). now apply combine_in in Hp. }
  destruct (find_const var (col64 (map fst d) f) (col64 (map snd d) f) lo hi b) as [-> | [e ->]]; [|exact B|eexists; reflexivity|eexists; reflexivity].
  apply (unique_const _ lo); [exact (fins_incl _ _ I F)|]. intros x Hx. apply C, I, Hx.
Qed.
Lemma ale_const model X lo hi f n m cat : fins (col64 X f) -> (forall x, In x (col64 X f) -> val x = val lo) -> (1 <= cat)%nat -> exists e, ale_fit_feature64 X model lo hi f n m cat = Raise e.
Proof.
  intros F C B. unfold ale_fit_feature64. cbv zeta. set (d := filter _ _). assert (I : forall x, In x (col64 d f) -> In x (col64 X f)).
  { intros x Hx. unfold col64 in *. apply in_map_iff in Hx as (r & <- & Hr). apply filter_In in Hr as [Hr _]. now apply (in_map (fun r => nth f r fnan)). }
  unfold fixed_find64. assert (L : (length (unique64 (col64 d f)) <= 1)%nat). { apply (unique_const _ lo); [exact (fins_incl _ _ I F)|]. intros x Hx. apply C, I, Hx. }
  rewrite (proj2 (Nat.leb_le _ _)) by lia. destruct (cat_limits_short _ m L) as [e ->]. eexists. reflexivity.
Qed.
