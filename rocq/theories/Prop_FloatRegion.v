(** C112, C113: the search for subregions in binary64 (see properties.jsonl). *)
From Coq Require Import Reals Permutation.
From Flocq Require Import Core.
From Flocq Require Import IEEE754.BinarySingleNaN.
From Verif Require Import Base Numpy NumpyFacts Utils FloatModel FloatFacts FloatGrid FloatBins FloatMean FloatAcc FloatNan FloatDPGrid FloatAdapt FloatRegion FloatRegionProofs FloatRegionSum FloatRegionTop FloatRegionMain FloatRegionNan FloatRegionPos FloatRegionGuard FloatRegionAll.
From Coq Require Import Lra.
Open Scope R_scope.

(** heter_func returns finite non-negative numbers of at most 2^900 on every part of the data ([part_of]: any of its instances, not more of them) *)
Definition heter_finite (g : regions64) : Prop := forall x v, part_of (g64_rows g) x -> g64_heter g x = Ok v -> fin v /\ Bsign v = false /\ val v <= bpow radix2 900.
Lemma heter_finite_guard g : heter_finite g -> heter_all (guard g).
Proof. intros H x v E. apply guard_ok in E as [P E]. exact (H x v P E). Qed.

(** The split of each level is one of the candidates, the numbers reported with it are those computed for it, and its
    weighted heterogeneity drop, as computed, is at least that of every other candidate. *)
Theorem C112_best g h0 ss pre s post : sums (g64_sum g) -> roomy g -> heter_finite g ->
  search64 g = Ok (Some (h0, ss)) -> ss = pre ++ s :: post ->
  candidate64 g (s64_feature s) (s64_type s) (s64_pos s) /\
  mapM (g64_heter g) (split_all64 (regions_after g pre) (s64_feature s) (s64_pos s) (s64_type s)) = Ok (s64_heter s) /\
  s64_nof s = map (@length row64) (split_all64 (regions_after g pre) (s64_feature s) (s64_pos s) (s64_type s)) /\
  forall f t pos, candidate64 g f t pos -> exists sub d w,
    evaluate64 g (regions_after g pre) (heter_after h0 pre) f pos t = Ok (sub, (d, w)) /\ val d <= val (s64_drop s).
Proof.
  intros SUM ROOM HF SEARCH AT. rewrite <- guard_search in SEARCH. pose proof (regions_after_parts g pre) as RP.
  destruct (best_all (guard g) h0 ss pre s post SUM ROOM (heter_finite_guard g HF) SEARCH AT) as (C & M & N & B). change (regions_after (guard g) pre) with (regions_after g pre) in *.
  rewrite guard_mapM in M by now apply split_all_parts. split; [exact C|]. split; [exact M|]. split; [exact N|]. intros f t pos CA. destruct (B f t pos CA) as (sub & d & w & Ed & Le). rewrite guard_evaluate in Ed by exact RP. eauto.
Qed.

(** In exact arithmetic: the weighted drop of the chosen split falls short of that of any candidate by at most
    2 (n + 4) (2^-50 H + 2^-1074), n being the number of subregions and H a bound on the heterogeneities of the level. *)
Theorem C112_near_optimal g h0 ss pre s post H f t pos sub d w : sums (g64_sum g) -> roomy g -> heter_finite g ->
  search64 g = Ok (Some (h0, ss)) -> ss = pre ++ s :: post -> candidate64 g f t pos ->
  evaluate64 g (regions_after g pre) (heter_after h0 pre) f pos t = Ok (sub, (d, w)) ->
  H <= bpow radix2 900 -> (forall x, In x (heter_after h0 pre) \/ In x sub \/ In x (s64_heter s) -> val x <= H) ->
  exact_drop (heter_after h0 pre) sub (map (@length row64) (split_all64 (regions_after g pre) f pos t)) <=
  exact_drop (heter_after h0 pre) (s64_heter s) (map (@length row64) (split_all64 (regions_after g pre) (s64_feature s) (s64_pos s) (s64_type s)))
  + 2 * (IZR (2 ^ Z.of_nat (S (length pre)) + 4) * (bpow radix2 (-50) * H + bpow radix2 (-1074))).
Proof.
  intros SUM ROOM HF SEARCH AT CA Ed HH HB. rewrite <- guard_search in SEARCH. rewrite <- guard_evaluate in Ed by apply regions_after_parts.
  exact (near_optimal_all (guard g) h0 ss pre s post H f t pos sub d w SUM ROOM (heter_finite_guard g HF) SEARCH AT CA Ed HH HB).
Qed.

(** The reported weighted heterogeneity and drop are the exact ones up to rounding. *)
Theorem C112_reported g h0 ss pre s post H : sums (g64_sum g) -> roomy g -> heter_finite g ->
  search64 g = Ok (Some (h0, ss)) -> ss = pre ++ s :: post -> H <= bpow radix2 900 -> (forall x, In x (heter_after h0 pre) \/ In x (s64_heter s) -> val x <= H) ->
  Rabs (val (s64_drop s) - exact_drop (heter_after h0 pre) (s64_heter s) (s64_nof s)) <= IZR (2 ^ Z.of_nat (S (length pre)) + 4) * (bpow radix2 (-50) * H + bpow radix2 (-1074)) /\
  Rabs (val (s64_wheter s) - exact_wheter (s64_heter s) (s64_nof s)) <= IZR (2 ^ Z.of_nat (S (length pre)) + 4) * (bpow radix2 (-51) * H + bpow radix2 (-1074)).
Proof. intros SUM ROOM HF SEARCH. rewrite <- guard_search in SEARCH. exact (reported_all (guard g) h0 ss pre s post H SUM ROOM (heter_finite_guard g HF) SEARCH). Qed.

(** Every reported split lowers the weighted heterogeneity, by the threshold up to one rounding, so k reported levels
    lower it geometrically. *)
Theorem C112_accepted g h0 ss : sums (g64_sum g) -> roomy g -> heter_finite g -> fin (g64_thres g) -> 0 <= val (g64_thres g) ->
  search64 g = Ok (Some (h0, ss)) ->
  (forall pre s post, choose64 g (Some (h0, ss)) = pre ++ s :: post ->
     val (s64_wheter s) < val (wheter_after h0 pre) /\
     val (s64_wheter s) <= (1 - val (g64_thres g) / (1 + bpow radix2 (-53))) * val (wheter_after h0 pre)) /\
  val (wheter_after h0 (choose64 g (Some (h0, ss)))) <= (1 - val (g64_thres g) / (1 + bpow radix2 (-53))) ^ length (choose64 g (Some (h0, ss))) * val h0.
Proof. intros SUM ROOM HF Ft T SEARCH. rewrite <- guard_search in SEARCH. exact (accepted_all (guard g) h0 ss SUM ROOM (heter_finite_guard g HF) Ft T SEARCH). Qed.

(** The candidate positions of a numerical feature lie between its extremes, and if the spread is not tiny compared to
    the size of the values, every one of them leaves instances on both sides. *)
Theorem C112_positions g f ps M : fins (map (feat64 f) (g64_rows g)) -> positions64 g f Cont = Ok ps ->
  (1 <= g64_nof_splits g)%nat -> (Z.of_nat (g64_nof_splits g) <= 2 ^ 48)%Z -> M <= bpow radix2 1000 -> (forall r, In r (g64_rows g) -> Rabs (val (feat64 f r)) <= M) ->
  (exists r r', In r (g64_rows g) /\ In r' (g64_rows g) /\ bpow radix2 (-900) <= val (feat64 f r') - val (feat64 f r)) ->
  length ps = g64_nof_splits g /\
  forall p, In p ps -> fin p /\
    (exists r, In r (g64_rows g) /\ val (feat64 f r) <= val p) /\ (exists r, In r (snd (split_dataset64 (g64_rows g) f p Cont))) /\
    ((exists r r', In r (g64_rows g) /\ In r' (g64_rows g) /\ IZR (Z.of_nat (g64_nof_splits g)) * M <= bpow radix2 49 * (val (feat64 f r') - val (feat64 f r))) ->
     exists r, In r (fst (split_dataset64 (g64_rows g) f p Cont))).
Proof.
  intros F P K1 K2 HM B (ra & rb & Ia & Ib & SP). unfold positions64 in P. set (c := map (feat64 f) (g64_rows g)) in *.
  assert (NC : c <> []) by (unfold c; destruct (g64_rows g); [destruct Ia|discriminate]).
  destruct (np_min64_ok c F NC) as (lo & El & Fl & Il & Ml). destruct (np_max64_ok c F NC) as (hi & Eh & Fh & Ih & Mh).
  rewrite (positions_cont_cand _ _ _ _ _ Eh El P). split; [now rewrite map_length, seq_length|].
  apply in_map_iff in Il as (rl & Erl & Irl). apply in_map_iff in Ih as (rh & Erh & Irh).
  assert (Mlo : forall r, In r (g64_rows g) -> val lo <= val (feat64 f r)) by (intros r Hr; apply Ml, in_map, Hr). assert (Mhi : forall r, In r (g64_rows g) -> val (feat64 f r) <= val hi) by (intros r Hr; apply Mh, in_map, Hr).
  intros p Hp. apply in_map_iff in Hp as (i & <- & Hi). apply in_seq in Hi.
  destruct (cand_range lo hi (g64_nof_splits g) M Fl Fh ltac:(rewrite <- Erl; apply B, Irl) ltac:(rewrite <- Erh; apply B, Irh) HM K1 K2 ltac:(pose proof (Mlo ra Ia); pose proof (Mhi rb Ib); lra) i ltac:(lia)) as (Fp & [R1 R2] & R3).
  split; [exact Fp|]. split; [exists rl; split; [exact Irl|rewrite Erl; exact R1]|]. split.
  - exists rh. cbn [split_dataset64 snd]. apply filter_In. split; [exact Irh|]. cbn [goes_right64]. rewrite Erh. now apply fle_val.
  - intros (rc & rd & Ic & Id & W). exists rl. cbn [split_dataset64 fst]. apply filter_In. split; [exact Irl|]. cbn [goes_left64]. rewrite Erl. apply flt_val; auto. apply R3.
    eapply Rle_trans; [exact W|]. apply Rmult_le_compat_l; [apply bpow_ge_0|]. pose proof (Mlo rc Ic). pose proof (Mhi rd Id). lra.
Qed.

(** ** C113 *)

(** One NaN heterogeneity, of any subregion of any candidate of a level: nothing is reported from that level on. *)
Theorem C113_nan g h0 ss pre s post f t pos x v : sums (g64_sum g) -> roomy g ->
  (forall x v, part_of (g64_rows g) x -> g64_heter g x = Ok v -> is_nan v = true \/ (fin v /\ Rabs (val v) <= bpow radix2 900)) ->
  search64 g = Ok (Some (h0, ss)) -> ss = pre ++ s :: post -> candidate64 g f t pos ->
  In x (split_all64 (regions_after g pre) f pos t) -> g64_heter g x = Ok v -> is_nan v = true ->
  (length (choose64 g (Some (h0, ss))) <= length pre)%nat.
Proof.
  intros SUM ROOM HV SEARCH AT CA Hx Ex N. rewrite <- guard_search in SEARCH.
  apply (nan_all (guard g) h0 ss pre s post f t pos x v SUM ROOM); auto.
  - intros y u E. apply guard_ok in E as [P E]. exact (HV y u P E).
  - rewrite guard_heter; [exact Ex|]. apply (split_all_parts g (regions_after g pre) f pos t); [apply regions_after_parts|exact Hx].
Qed.
(** and if the heterogeneity of the whole data set is NaN, nothing is reported at all *)
Theorem C113_root g h0 : g64_heter g (g64_rows g) = Ok h0 -> is_nan h0 = true -> forall acc, subregions64 g = Ok acc -> acc = [].
Proof.
  intros H N acc A. unfold subregions64 in A. apply bind_ok in A as (fo & S & A). injection A as <-. destruct fo as [[h ss]|]; [|reflexivity].
  destruct ss as [|s ss]; [cbn [choose64]; destruct (Beqb h BIGM64), (Bltb h (g64_small g)); reflexivity|].
  destruct (search_at g h (s :: ss) [] s ss S eq_refl) as (H' & _). rewrite H in H'. injection H' as <-. now apply root_nan.
Qed.
(** A numerical conditioning feature with a missing value anywhere is never used by a reported split. *)
Theorem C113_missing g acc s : sums (g64_sum g) -> roomy g -> heter_finite g ->
  g64_heter g [] = Ok BIGM64 -> (forall v, g64_heter g (g64_rows g) = Ok v -> val v <= 100000000) -> fin (g64_thres g) -> bpow radix2 (-8) <= val (g64_thres g) ->
  subregions64 g = Ok acc -> In s acc -> s64_type s = Cont -> forall r, In r (g64_rows g) -> is_nan (feat64 (s64_feature s) r) = false.
Proof.
  intros SUM ROOM HF HE H0 Ft T A. rewrite <- guard_subregions in A. apply (missing_all (guard g) acc s SUM ROOM (heter_finite_guard g HF)); auto.
  intros v E. apply H0. now apply guard_ok in E.
Qed.
(** Cutting a region: by a categorical feature every instance goes to exactly one side; by a numerical one at a position
    that is a number, every instance with a value goes to exactly one side and an instance with a missing value is
    lost. *)
Theorem C113_rows x f pos t : is_nan pos = false ->
  let '(a, b) := split_dataset64 x f pos t in
  (length a + length b + (match t with Cat => 0 | Cont => count (fun r => is_nan (feat64 f r)) x end) = length x)%nat /\
  (forall r, In r a -> In r x /\ ~ In r b) /\ (forall r, In r b -> In r x) /\
  (forall r, In r x -> (In r a \/ In r b) <-> (t = Cat \/ is_nan (feat64 f r) = false)).
Proof.
  intros NP. cbn [split_dataset64]. set (L := fun r => goes_left64 t pos (feat64 f r)). set (R := fun r => goes_right64 t pos (feat64 f r)).
  assert (LR : forall r, L r = true -> R r = false) by (intros r; apply two_sides).
  assert (LN : forall r, (L r || R r)%bool = match t with Cat => true | Cont => negb (is_nan (feat64 f r)) end).
  { intros r. unfold L, R. destruct t; cbn [goes_left64 goes_right64]; [apply orb_negb_r|]. set (v := feat64 f r). destruct (is_nan v) eqn:N.
    - rewrite (nan_eq v N). destruct pos; reflexivity.
    - destruct (Bleb pos v) eqn:LE; [apply orb_true_r|]. rewrite orb_false_r. cbn [negb]. pose proof (Bcompare_swap 53 1024 pos v) as SW. unfold Bcompare in SW. unfold Bleb, SpecFloat.SFleb in LE. unfold Bltb, SpecFloat.SFltb. rewrite SW.
      destruct (SpecFloat.SFcompare (B2SF pos) (B2SF v)) as [[]|] eqn:C; try discriminate LE; [reflexivity|].
      exfalso. destruct pos, v; try discriminate NP; try discriminate N; cbn in C; try discriminate C; destruct s, s0; try discriminate C; destruct (Z.compare e e1); discriminate C. }
  split; [|split; [|split]].
  - clear - LR LN. induction x as [|r x IH]; [destruct t; reflexivity|]. cbn [filter]. specialize (LR r). specialize (LN r). destruct t.
    + destruct (L r); [rewrite LR by reflexivity; cbn [length]; lia|]. cbn [orb] in LN. rewrite LN. cbn [length]. lia.
    + unfold count in *. cbn [filter]. destruct (L r); [rewrite LR by reflexivity; rewrite orb_false_r in LN || idtac|].
      * destruct (is_nan (feat64 f r)); [discriminate LN|]. cbn [length]. lia.
      * cbn [orb] in LN. rewrite LN. destruct (is_nan (feat64 f r)); cbn [negb length]; lia.
  - intros r Hr. apply filter_In in Hr as [H1 H2]. split; [exact H1|]. intros Hb. apply filter_In in Hb as [_ Hb]. rewrite (LR r H2) in Hb. discriminate Hb.
  - intros r Hr. now apply filter_In in Hr.
  - intros r Hr. specialize (LN r). rewrite !filter_In. fold (L r) (R r). destruct t.
    + split; [now left|]. intros _. apply orb_true_iff in LN as [->| ->]; auto.
    + split.
      * intros H. right. assert (E : (L r || R r)%bool = true) by (destruct H as [[_ ->]|[_ ->]]; [reflexivity|apply orb_true_r]). rewrite LN in E. now apply negb_true_iff in E.
      * intros [C|C]; [discriminate C|]. rewrite C in LN. apply orb_true_iff in LN as [->| ->]; auto.
Qed.

(** ** examples *)
Definition sum_left (l : list b64) : b64 := match l with [] => fzero | a :: l' => fold_left fadd l' a end.
Lemma sum_left_sums : sums sum_left.
Proof. intros [|a l] N; [congruence|]. exists (chain (Leaf a) l). rewrite chain_leaves, chain_sum. split; [apply Permutation_refl|reflexivity]. Qed.
(** a heterogeneity: BIG_M below two instances, NaN with a NaN effect, 0 when all effects agree, else 2 *)
Definition heter8 (x : list row64) : res b64 :=
  if Nat.ltb (length x) 2 then Ok BIGM64
  else if existsb (fun r => is_nan (nth 0 (snd r) fnan)) x then Ok fnan
  else if forallb (fun r => Beqb (nth 0 (snd r) fnan) (nth 0 (snd (nth 0 x ([], []))) fnan)) x then Ok fzero else Ok (fofZ 2).
Definition heter8' (x : list row64) : res b64 := if Nat.ltb (length x) 2 then Ok BIGM64
  else if forallb (fun r => Beqb (nth 0 (snd r) fnan) (nth 0 (snd (nth 0 x ([], []))) fnan)) x then Ok fzero else Ok (fofZ 2).
(** eight instances; the effect depends on feature 1 only *)
Definition row8 (missing nan : nat) (i : nat) : row64 :=
  ([fofn (i mod 3); if Nat.eqb i missing then fnan else fofn i; fofn (i mod 2)], [if Nat.eqb i nan then fnan else if Nat.ltb i 4 then fofZ 1 else fofZ (-1)]).
Definition thres8 : b64 := fdiv (fofZ 1) (fofZ 10).
Definition small8 : b64 := fdiv (fofZ 1) (fofZ 100).
Definition g8 (heter : list row64 -> res b64) (missing nan : nat) : regions64 :=
  mkRegions64 heter sum_left (map (row8 missing nan) (seq 0 8)) Cont [1; 2]%nat [Cont; Cat] 10 2 20 2 thres8 small8 false.
Lemma roomy8 h a b : roomy (g8 h a b). Proof. unfold roomy. cbn. lia. Qed.
Lemma finite8 a b : heter_finite (g8 heter8' a b).
Proof.
  intros x v _. change (g64_heter (g8 heter8' a b)) with heter8'. unfold heter8'. pose proof (bpow_le radix2 27 900 ltac:(lia)) as B. change (bpow radix2 27) with 134217728 in B.
  destruct bigm_fits as [[F _] V]. destruct (fofZ_val 2 ltac:(lia)) as [V2 F2].
  assert (V0 : val fzero = 0) by reflexivity.
  destruct (Nat.ltb _ _); [intros E; assert (v = BIGM64) by congruence; subst v; split; [exact F|]; split; [reflexivity|rewrite V; lra]|].
  destruct (forallb _ _); intros E; [assert (v = fzero) by congruence|assert (v = fofZ 2) by congruence]; subst v; [split; [reflexivity|]; split; [reflexivity|rewrite V0; lra]|]. split; [exact F2|]. split; [reflexivity|rewrite V2; lra].
Qed.
Definition show (r : res (list split64)) : list (nat * bool * list nat) := match r with Ok l => map (fun s => (s64_feature s, Beqb (s64_wheter s) fzero, s64_nof s)) l | Raise _ => [] end.
(** the hypotheses of C112 are met; the search finds the split on feature 1 *)
Example region8 : sums (g64_sum (g8 heter8' 99 99)) /\ roomy (g8 heter8' 99 99) /\ heter_finite (g8 heter8' 99 99) /\
  show (subregions64 (g8 heter8' 99 99)) = [(1%nat, true, [4; 4]%nat)].
Proof. split; [exact sum_left_sums|]. split; [apply roomy8|]. split; [apply finite8|]. vm_compute. reflexivity. Qed.
(** and those of C112_positions, with M = 8, and of C113_missing *)
Example positions8 : fins (map (feat64 1) (g64_rows (g8 heter8' 99 99))) /\ (forall r, In r (g64_rows (g8 heter8' 99 99)) -> Rabs (val (feat64 1 r)) <= 8) /\
  (exists r r', In r (g64_rows (g8 heter8' 99 99)) /\ In r' (g64_rows (g8 heter8' 99 99)) /\ IZR (Z.of_nat 20) * 8 <= bpow radix2 49 * (val (feat64 1 r') - val (feat64 1 r))) /\
  g64_heter (g8 heter8' 99 99) [] = Ok BIGM64 /\ Bleb (fdiv (fofZ 1) (fofZ 256)) (g64_thres (g8 heter8' 99 99)) = true.
Proof.
  assert (R : forall r, In r (g64_rows (g8 heter8' 99 99)) -> exists i, (i < 8)%nat /\ feat64 1 r = fofn i).
  { intros r Hr. apply in_map_iff in Hr as (i & <- & Hi). apply in_seq in Hi. exists i. split; [lia|]. unfold row8. replace (Nat.eqb i 99) with false by (symmetry; apply Nat.eqb_neq; lia). reflexivity. }
  split; [|split; [|split]].
  - intros x Hx. apply in_map_iff in Hx as (r & <- & Hr). destruct (R r Hr) as (i & Hi & ->). apply (fofZ_val (Z.of_nat i)). lia.
  - intros r Hr. destruct (R r Hr) as (i & Hi & ->). destruct (fofZ_val (Z.of_nat i) ltac:(lia)) as [V _]. unfold fofn. rewrite V, Rabs_pos_eq by (apply IZR_le; lia). apply IZR_le. lia.
  - exists (row8 99 99 0), (row8 99 99 7). split; [apply (in_map (row8 99 99)), in_seq; lia|]. split; [apply (in_map (row8 99 99)), in_seq; lia|].
    change (feat64 1 (row8 99 99 7)) with (fofZ 7). change (feat64 1 (row8 99 99 0)) with (fofZ 0). destruct (fofZ_val 7 ltac:(lia)) as [-> _]. destruct (fofZ_val 0 ltac:(lia)) as [-> _].
    change (IZR (Z.of_nat 20)) with 20. assert (bpow radix2 10 <= bpow radix2 49) by (apply bpow_le; lia). change (bpow radix2 10) with 1024 in H. lra.
  - split; [reflexivity|]. vm_compute. reflexivity.
Qed.
(** the same data with one NaN effect, instance 5: nothing is reported *)
Example region8_nan : show (subregions64 (g8 heter8 99 99)) = [(1%nat, true, [4; 4]%nat)] /\ show (subregions64 (g8 heter8 99 5)) = [] /\
  (exists h0, g64_heter (g8 heter8 99 5) (g64_rows (g8 heter8 99 5)) = Ok h0 /\ is_nan h0 = true).
Proof. split; [vm_compute; reflexivity|]. split; [vm_compute; reflexivity|]. exists fnan. split; [vm_compute; reflexivity|reflexivity]. Qed.
(** the same data with feature 1 missing in instance 0: nothing is reported *)
Example region8_missing : show (subregions64 (g8 heter8' 0 99)) = [].
Proof. vm_compute. reflexivity. Qed.
(** the candidate positions of a narrow column collapse to its minimum, and the left part is empty *)
Definition narrow : regions64 := mkRegions64 heter8' sum_left [([fofZ 0; fofZ 10000000000000000], []); ([fofZ 1; fofZ 10000000000000002], [])] Cont [1]%nat [Cont] 10 2 20 1 thres8 small8 false.
Example narrow_empty : match positions64 narrow 1 Cont with Ok (p :: _) => Beqb p (fofZ 10000000000000000) && Nat.eqb (length (fst (split_dataset64 (g64_rows narrow) 1 p Cont))) 0 | _ => false end = true.
Proof. vm_compute. reflexivity. Qed.

Print Assumptions C112_best. Print Assumptions C112_near_optimal. Print Assumptions C112_reported. Print Assumptions C112_accepted. Print Assumptions C112_positions.
Print Assumptions C113_nan. Print Assumptions C113_root. Print Assumptions C113_missing. Print Assumptions C113_rows.
