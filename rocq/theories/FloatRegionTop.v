(** FloatRegionTop: the levels of the binary64 split search, and the acceptance of the splits. *)
From Coq Require Import Reals.
From Flocq Require Import Core.
From Flocq Require Import IEEE754.BinarySingleNaN.
From Verif Require Import Base Numpy NumpyFacts Utils FloatModel FloatFacts FloatGrid FloatBins FloatMean FloatAcc FloatNan FloatRegion FloatRegionProofs FloatRegionSum.
From Coq Require Import Lra SpecFloat.
Open Scope R_scope.

(** the subregions after the splits [pre], and their heterogeneities *)
Definition regions_after (g : regions64) (pre : list split64) : list (list row64) :=
  fold_left (fun xs s => split_all64 xs (s64_feature s) (s64_pos s) (s64_type s)) pre [g64_rows g].
Definition heter_after (h0 : b64) (pre : list split64) : list b64 := last (map s64_heter pre) [h0].
Definition wheter_after (h0 : b64) (pre : list split64) : b64 := last (map s64_wheter pre) h0.

Lemma last_cons {A} (l : list A) a d : last (a :: l) d = last l a.
Proof. revert a d. induction l as [|b l IH]; intros a d; [reflexivity|]. change (last (a :: b :: l) d) with (last (b :: l) d). rewrite !IH. reflexivity. Qed.
Lemma last_snoc {A} (l : list A) a d : last (l ++ [a]) d = a. Proof. apply last_last. Qed.

Lemma search_levels_at g : forall n xs before ss, search_levels64 g n xs before = Ok ss -> forall pre s post, ss = pre ++ s :: post ->
  (length pre < n)%nat /\
  single_level64 g (fold_left (fun xs s => split_all64 xs (s64_feature s) (s64_pos s) (s64_type s)) pre xs) (last (map s64_heter pre) before) = Ok s.
Proof.
  induction n as [|n IH]; intros xs before ss H pre s post E.
  { injection H as <-. destruct pre; discriminate E. }
  cbn [search_levels64] in H. destruct (existsb _ xs) eqn:X.
  { injection H as <-. destruct pre; discriminate E. }
  apply bind_ok in H as (s0 & S & H). apply bind_ok in H as (rest & R & H). injection H as <-.
  destruct pre as [|p pre]; cbn [app] in E; injection E as -> E.
  - split; [cbn; lia|exact S].
  - destruct (IH _ _ _ R pre s post E) as [I1 I2]. split; [cbn; lia|]. cbn [fold_left map]. rewrite last_cons. exact I2.
Qed.
Lemma search_at g h0 ss pre s post : search64 g = Ok (Some (h0, ss)) -> ss = pre ++ s :: post ->
  g64_heter g (g64_rows g) = Ok h0 /\ (length pre < g64_max_levels g)%nat /\ single_level64 g (regions_after g pre) (heter_after h0 pre) = Ok s.
Proof.
  unfold search64. intros H E.
  assert (G : (passert (Nat.leb (g64_max_levels g) (length (g64_foc g))) ;; h0 <- g64_heter g (g64_rows g) ;; ss <- search_levels64 g (g64_max_levels g) [g64_rows g] [h0] ;; Ok (match ss with [] => None | _ => Some (h0, ss) end)) = Ok (Some (h0, ss))) by (destruct (g64_type g), (g64_split_cat g); try discriminate H; exact H).
  clear H. apply bind_ok in G as (u & _ & G). apply bind_ok in G as (h & Hh & G). apply bind_ok in G as (l & L & G). destruct l as [|x l]; [discriminate G|]. injection G as -> <-.
  destruct (search_levels_at g _ _ _ _ L pre s post E) as [I1 I2]. auto.
Qed.

Lemma split_all_length xs f pos t : length (split_all64 xs f pos t) = (2 * length xs)%nat.
Proof. unfold split_all64. induction xs as [|x xs IH]; [reflexivity|]. cbn [flat_map]. destruct (split_dataset64 x f pos t). cbn [app length]. rewrite IH. lia. Qed.
Lemma two_sides t pos v : goes_left64 t pos v = true -> goes_right64 t pos v = false.
Proof.
  destruct t; cbn [goes_left64 goes_right64]; [intros ->; reflexivity|]. intros H. apply not_true_iff_false. intros H'.
  assert (N : is_nan v = false /\ is_nan pos = false) by (destruct v, pos; try discriminate H; auto). destruct N as [N1 N2].
  assert (B : Bleb v pos = true) by (unfold Bltb, Bleb in *; unfold SFltb, SFleb in *; destruct (SFcompare _ _) as [[]|]; auto; discriminate H).
  unfold Bltb, Bleb, SFltb, SFleb in H, H'. pose proof (Bcompare_swap 53 1024 v pos) as SW. unfold Bcompare in SW. destruct (SFcompare (B2SF v) (B2SF pos)) as [[]|]; try discriminate H. rewrite SW in H'. discriminate H'.
Qed.
Lemma split_count x f pos t : (length (fst (split_dataset64 x f pos t)) + length (snd (split_dataset64 x f pos t)) <= length x)%nat.
Proof.
  cbn [split_dataset64 fst snd]. induction x as [|r x IH]; [cbn; lia|]. cbn [filter]. pose proof (two_sides t pos (feat64 f r)) as T.
  destruct (goes_left64 t pos (feat64 f r)); [rewrite T by reflexivity; cbn [length]; lia|]. destruct (goes_right64 t pos (feat64 f r)); cbn [length]; lia.
Qed.
Lemma split_all_count xs f pos t : (sumn (map (@length row64) (split_all64 xs f pos t)) <= sumn (map (@length row64) xs))%nat.
Proof.
  unfold split_all64. induction xs as [|x xs IH]; [cbn; lia|]. cbn [flat_map]. pose proof (split_count x f pos t) as C. destruct (split_dataset64 x f pos t) as [a b]. cbn [fst snd] in C. cbn [app map]. unfold sumn in *. cbn [fold_right]. lia.
Qed.
Lemma fold_regions pre : forall xs, let ys := fold_left (fun xs s => split_all64 xs (s64_feature s) (s64_pos s) (s64_type s)) pre xs in
  length ys = (2 ^ length pre * length xs)%nat /\ (sumn (map (@length row64) ys) <= sumn (map (@length row64) xs))%nat.
Proof.
  induction pre as [|s pre IH]; intros xs; cbn [fold_left length Nat.pow]; [split; lia|]. destruct (IH (split_all64 xs (s64_feature s) (s64_pos s) (s64_type s))) as [I1 I2]. rewrite I1, split_all_length. pose proof (split_all_count xs (s64_feature s) (s64_pos s) (s64_type s)). split; lia.
Qed.
Lemma regions_after_size g pre : length (regions_after g pre) = (2 ^ length pre)%nat /\ (sumn (map (@length row64) (regions_after g pre)) <= length (g64_rows g))%nat.
Proof. unfold regions_after. destruct (fold_regions pre [g64_rows g]) as [I1 I2]. rewrite I1. cbn [length] in *. unfold sumn in I2 at 2. cbn [map fold_right] in I2. split; lia. Qed.
Lemma sumn_succ l : sumn (map (fun m => (m + 1)%nat) l) = (sumn l + length l)%nat.
Proof. unfold sumn. induction l as [|a l IH]; [reflexivity|]. cbn [map fold_right length]. lia. Qed.

(** enough room for the counts: instances plus subregions *)
Definition roomy (g : regions64) : Prop := (Z.of_nat (length (g64_rows g)) + 2 ^ Z.of_nat (g64_max_levels g) <= 2 ^ 40)%Z.
Lemma level_sizes g pre f pos t : roomy g -> (length pre < g64_max_levels g)%nat ->
  let ns := map (@length row64) (split_all64 (regions_after g pre) f pos t) in
  length ns = (2 * length (regions_after g pre))%nat /\ (1 <= length (regions_after g pre))%nat /\ (Z.of_nat (length ns) <= 2 ^ 40)%Z /\ (Z.of_nat (total ns) <= 2 ^ 53)%Z.
Proof.
  intros R L ns. destruct (regions_after_size g pre) as [S1 S2]. assert (Ln : length ns = (2 * length (regions_after g pre))%nat) by (unfold ns; rewrite map_length; apply split_all_length).
  assert (P : (Z.of_nat (2 ^ length pre) * 2 <= 2 ^ Z.of_nat (g64_max_levels g))%Z).
  { rewrite Nat2Z.inj_pow. change (Z.of_nat 2) with 2%Z. rewrite Z.mul_comm, <- Z.pow_succ_r by lia. apply Z.pow_le_mono_r; lia. }
  unfold roomy in R. split; [exact Ln|]. split; [rewrite S1; pose proof (Nat.pow_nonzero 2 (length pre)); lia|]. rewrite Ln, S1. split; [lia|].
  unfold total. rewrite sumn_succ, Ln. pose proof (split_all_count (regions_after g pre) f pos t) as C. fold ns in C. lia.
Qed.
Lemma evaluate_parts g xs before f pos t sub d w : evaluate64 g xs before f pos t = Ok (sub, (d, w)) ->
  mapM (g64_heter g) (split_all64 xs f pos t) = Ok sub /\ length sub = (2 * length xs)%nat /\ score64 (g64_sum g) before sub (map (@length row64) (split_all64 xs f pos t)) = Ok (d, w).
Proof.
  unfold evaluate64. intros H. apply bind_ok in H as (s & H1 & H). apply bind_ok in H as (c & H2 & H). injection H as <- ->. split; [exact H1|]. split; [|exact H2].
  rewrite (mapM_length _ _ _ H1). apply split_all_length.
Qed.

(** all heterogeneities of a level come from heter_func *)
Lemma heter_after_length g h0 ss pre s post : search64 g = Ok (Some (h0, ss)) -> ss = pre ++ s :: post -> length (heter_after h0 pre) = length (regions_after g pre).
Proof.
  intros H E. destruct (rev pre) as [|p q] eqn:R.
  - assert (pre = []) by (apply (f_equal (@rev _)) in R; now rewrite rev_involutive in R). subst pre. reflexivity.
  - assert (P : pre = rev q ++ [p]) by (apply (f_equal (@rev _)) in R; rewrite rev_involutive in R; exact R). rewrite P in E |- *. rewrite <- app_assoc in E.
    destruct (search_at g h0 ss (rev q) p (s :: post) H E) as (_ & _ & S). apply single_level_spec in S as (_ & S & _). apply evaluate_parts in S as (_ & S & _).
    unfold heter_after, regions_after. rewrite map_app, fold_left_app. cbn [map fold_left]. rewrite last_snoc, S, split_all_length. reflexivity.
Qed.
Lemma heter_after_from g h0 ss pre s post v : search64 g = Ok (Some (h0, ss)) -> ss = pre ++ s :: post -> In v (heter_after h0 pre) -> exists x, g64_heter g x = Ok v.
Proof.
  intros H E Hv. destruct (rev pre) as [|p q] eqn:R.
  - assert (pre = []) by (apply (f_equal (@rev _)) in R; now rewrite rev_involutive in R). subst pre. destruct Hv as [<-|[]]. exists (g64_rows g). eapply (search_at g h0 ss [] s post); eauto.
  - assert (P : pre = rev q ++ [p]) by (apply (f_equal (@rev _)) in R; rewrite rev_involutive in R; exact R). rewrite P in E, Hv. rewrite <- app_assoc in E.
    destruct (search_at g h0 ss (rev q) p (s :: post) H E) as (_ & _ & S). apply single_level_spec in S as (_ & S & _). apply evaluate_parts in S as (S & _).
    unfold heter_after in Hv. rewrite map_app in Hv. cbn [map] in Hv. rewrite last_snoc in Hv. apply (In_nth _ _ fnan) in Hv as (k & Hk & <-). eexists. eapply (mapM_nth _ _ _ k []); [exact S|]. rewrite <- (mapM_length _ _ _ S). exact Hk.
Qed.

(** ** acceptance *)
Lemma valid_nan thres a b : valid64 thres a b = true -> is_nan a = false /\ is_nan b = false.
Proof.
  intros H. unfold valid64 in H. destruct (is_nan a) eqn:Na; [rewrite (nan_eq a Na), fsub_nan_l, fdiv_nan_l in H; destruct thres; discriminate H|].
  destruct (is_nan b) eqn:Nb; [rewrite (nan_eq b Nb), fsub_nan_r, fdiv_nan_l in H; destruct thres; discriminate H|]. auto.
Qed.
Lemma prefix_spec thres : forall ss a acc, valid_prefix64 thres a ss = acc -> exists rest, ss = acc ++ rest /\
  (forall pre s post, acc = pre ++ s :: post -> valid64 thres (last (map s64_wheter pre) a) (s64_wheter s) = true) /\
  (match rest with [] => True | s :: _ => valid64 thres (last (map s64_wheter acc) a) (s64_wheter s) = false end).
Proof.
  induction ss as [|s ss IH]; intros a acc <-; cbn [valid_prefix64].
  - exists []. split; [reflexivity|]. split; [intros [] ? ? E; discriminate E|exact I].
  - destruct (valid64 thres a (s64_wheter s)) eqn:V.
    + destruct (IH (s64_wheter s) _ eq_refl) as (rest & E & A & B). exists rest. split; [cbn [app]; now rewrite <- E|]. split.
      * intros [|p pre] s' post E'; cbn [app] in E'; injection E' as <- E'; [exact V|]. cbn [map]. rewrite last_cons. eapply A. exact E'.
      * destruct rest as [|r rest]; [exact I|]. cbn [map]. rewrite last_cons. exact B.
    + exists (s :: ss). split; [reflexivity|]. split; [intros [] ? ? E; discriminate E|exact V].
Qed.
Lemma choose_spec g h0 ss acc : choose64 g (Some (h0, ss)) = acc -> exists rest, ss = acc ++ rest /\
  (forall pre s post, acc = pre ++ s :: post -> Beqb h0 BIGM64 = false /\ Bltb h0 (g64_small g) = false /\ valid64 (g64_thres g) (wheter_after h0 pre) (s64_wheter s) = true).
Proof.
  cbn [choose64]. destruct (Beqb h0 BIGM64); [intros <-; exists ss; split; [reflexivity|]; intros [] ? ? E; discriminate E|].
  destruct (Bltb h0 (g64_small g)); [intros <-; exists ss; split; [reflexivity|]; intros [] ? ? E; discriminate E|].
  intros H. destruct (prefix_spec _ _ _ _ H) as (rest & E & A & _). exists rest. split; [exact E|]. intros pre s post E'. split; [reflexivity|]. split; [reflexivity|]. eapply A. exact E'.
Qed.

(** an accepted split reduces the heterogeneity by (nearly) the threshold *)
Lemma valid_reduces thres a b : fin thres -> 0 <= val thres -> fin a -> Bsign a = false -> fin b -> 0 <= val a <= bpow radix2 1000 -> 0 <= val b <= bpow radix2 1000 -> valid64 thres a b = true ->
  0 < val a /\ val b < val a /\ val b <= (1 - val thres / (1 + u53)) * val a.
Proof.
  intros Ft T Fa Sa Fb Ba Bb V. unfold valid64 in V. assert (BP : bpow radix2 1000 <= bpow radix2 1023) by (apply bpow_le; lia).
  destruct (fsub_val a b Fa Fb) as [Vs Fs]. { apply Rabs_le. pose proof (bpow_gt_0 radix2 1000). lra. }
  assert (NZ : 0 < val a).
  { destruct (Req_dec (val a) 0) as [Z|NZ]; [exfalso|lra]. assert (Vs' : val (fsub a b) <= 0) by (rewrite Vs, <- rnd_0; apply rnd_le; lra).
    assert (Za : exists sg, a = B754_zero sg) by (destruct a as [sg| | |sg m e B]; try discriminate Fa; [now exists sg|exfalso; cbn [B2R] in Z; apply eq_0_F2R in Z; destruct sg; discriminate Z]). destruct Za as [sg ->]. cbn in Sa. subst sg.
    destruct (fsub (B754_zero false) b) as [s1| | |s1 m1 e1 B1]; try discriminate Fs; [destruct thres; discriminate V|].
    destruct s1; [destruct thres as [| | |[]]; try discriminate Ft; discriminate V|]. cbn [B2R] in Vs'. assert (0 < F2R (Float radix2 (cond_Zopp false (Z.pos m1)) e1)) by (apply F2R_gt_0; reflexivity). lra. }
  destruct (Rle_lt_dec (val a) (val b)) as [C|C].
  { exfalso. assert (Vs' : val (fsub a b) <= 0) by (rewrite Vs, <- rnd_0; apply rnd_le; lra).
    assert (Q : is_nan (fdiv (fsub a b) a) = false /\ (fin (fdiv (fsub a b) a) -> val (fdiv (fsub a b) a) <= 0) /\ (fin (fdiv (fsub a b) a) \/ fdiv (fsub a b) a = B754_infinity true)).
    { destruct (fsub a b) as [s1| | |s1 m1 e1 B1] eqn:Eab; try discriminate Fs; destruct a as [|?| |s2 m2 e2 B2] eqn:Ea; try discriminate Fa; try (exfalso; cbn in NZ; lra).
      - split; [reflexivity|]. split; [intros _; cbn; lra|left; reflexivity].
      - assert (s2 = false). { destruct s2; [exfalso|reflexivity]. cbn [B2R] in NZ. assert (F2R (Float radix2 (cond_Zopp true (Z.pos m2)) e2) < 0) by (apply F2R_lt_0; reflexivity). lra. } subst s2.
        assert (s1 = true). { destruct s1; [reflexivity|exfalso]. cbn [B2R] in Vs'. assert (0 < F2R (Float radix2 (cond_Zopp false (Z.pos m1)) e1)) by (apply F2R_gt_0; reflexivity). lra. } subst s1.
        pose proof (Bdiv_correct 53 1024 _ _ mode_NE (B754_finite true m1 e1 B1) (B754_finite false m2 e2 B2)) as D. specialize (D ltac:(apply Rgt_not_eq; exact NZ)). fold fdiv in D. set (q := fdiv (B754_finite true m1 e1 B1) (B754_finite false m2 e2 B2)) in *.
        cbn [round_mode] in D. destruct (Rlt_bool _ _).
        + destruct D as (D1 & D2 & _). change (Bdiv mode_NE (B754_finite true m1 e1 B1) (B754_finite false m2 e2 B2)) with q in D1, D2. split; [destruct q; try reflexivity; discriminate D2|]. split; [|left; exact D2]. intros _. rewrite D1, <- rnd_0. apply rnd_le.
          unfold Rdiv. apply Rmult_le_0_r || idtac. assert (0 < / B2R (B754_finite false m2 e2 B2)) by (apply Rinv_0_lt_compat; exact NZ).
          replace 0 with (0 * / B2R (B754_finite false m2 e2 B2)) by ring. apply Rmult_le_compat_r; [lra|exact Vs'].
        + change (Bdiv mode_NE (B754_finite true m1 e1 B1) (B754_finite false m2 e2 B2)) with q in D. unfold binary_overflow in D. cbn [overflow_to_inf] in D. destruct q; try discriminate D. cbn in D. injection D as ->. split; [reflexivity|]. split; [intros Q; discriminate Q|right; reflexivity]. }
    destruct Q as (_ & Q2 & [Q3|Q3]); [apply flt_val in V; auto; specialize (Q2 Q3); lra|]. rewrite Q3 in V. destruct thres as [[]| | |[]]; try discriminate Ft; discriminate V. }
  split; [exact NZ|]. split; [exact C|].
  destruct (rnd_minus_rel a b) as (e & He & Er). apply Rabs_le_inv in He. pose proof u53_pos as U.
  assert (S0 : 0 <= val (fsub a b)) by (rewrite Vs; apply rnd_nonneg; lra).
  assert (S1 : val (fsub a b) <= val a) by (rewrite Vs; apply Rle_trans with (rnd (val a)); [apply rnd_le; lra|rewrite rnd_val; lra]).
  assert (Q01 : 0 <= val (fsub a b) / val a <= 1).
  { unfold Rdiv. split; [apply Rmult_le_pos; [exact S0|apply Rlt_le, Rinv_0_lt_compat; lra]|]. apply Rmult_le_reg_r with (val a); [lra|]. rewrite Rmult_assoc, Rinv_l by lra. lra. }
  destruct (fdiv_val (fsub a b) a Fs Fa) as [Vd Fd]; [apply Rgt_not_eq; lra| |].
  { rewrite Rabs_pos_eq by lra. apply Rle_trans with 1; [lra|]. change 1 with (bpow radix2 0). apply bpow_le. lia. }
  apply flt_val in V; auto. rewrite Vd in V.
  assert (Q : val thres < val (fsub a b) / val a).
  { destruct (Rle_lt_dec (val (fsub a b) / val a) (val thres)) as [L|L]; [exfalso|exact L]. apply rnd_le in L. rewrite rnd_val in L. lra. }
  rewrite Vs, Er in Q.
  assert (Q' : val thres * val a < (val a - val b) * (1 + e)). { apply (Rmult_lt_compat_r (val a)) in Q; [|lra]. unfold Rdiv in Q. rewrite Rmult_assoc, Rinv_l, Rmult_1_r in Q by lra. exact Q. }
  assert (Q2 : val thres * val a < (val a - val b) * (1 + u53)). { eapply Rlt_le_trans; [exact Q'|]. apply Rmult_le_compat_l; lra. }
  apply Rmult_le_reg_r with (1 + u53); [lra|]. replace ((1 - val thres / (1 + u53)) * val a * (1 + u53)) with (val a * (1 + u53) - val thres * val a) by (field; lra). lra.
Qed.
