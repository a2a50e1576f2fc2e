(** C126: In float64, a deeper search extends the shallower one and stricter thresholds only prune.
    Nothing is assumed of the heterogeneity function or of the numbers: it may raise, or return NaN or an infinity. *)
From Coq Require Import Reals.
From Flocq Require Import Core.
From Flocq Require Import IEEE754.BinarySingleNaN.
From Verif Require Import Base Numpy Utils FloatModel FloatRegion FloatTune Prop_FloatRegion.
Open Scope nat_scope.

(** max_split_levels: with n <= n' levels, exactly the first n of the splits reported with n' levels (and no exception where n' raises none). *)
Theorem C126_depth g n n' thres small l : n <= n' -> subregions64 (tuned g n' thres small) = Ok l -> subregions64 (tuned g n thres small) = Ok (firstn n l).
Proof. apply subregions_depth. Qed.
(** The splits themselves, before pruning: the same. *)
Theorem C126_search g n n' thres small f : n <= n' -> search64 (tuned g n' thres small) = Ok f ->
  exists f', search64 (tuned g n thres small) = Ok f' /\ splits_of f' = firstn n (splits_of f).
Proof. intros L H. destruct (search_depth g n n' thres small f L H) as (f' & A & B & _). eauto. Qed.
(** heter_pcg_drop_thres and heter_small_enough: larger values report an initial part of the splits. *)
Theorem C126_thresholds g n thres small thres' small' l : Bleb thres' thres = true -> Bleb small' small = true -> subregions64 (tuned g n thres' small') = Ok l ->
  exists k post, subregions64 (tuned g n thres small) = Ok k /\ l = k ++ post.
Proof. apply subregions_thres. Qed.
(** All three together: every reported split stays the one reported at its level by the more generous settings. *)
Theorem C126_options g n n' thres small thres' small' l : n <= n' -> Bleb thres' thres = true -> Bleb small' small = true -> subregions64 (tuned g n' thres' small') = Ok l ->
  exists k, subregions64 (tuned g n thres small) = Ok k /\ length k <= n /\ forall i s, nth_error k i = Some s -> nth_error l i = Some s.
Proof.
  intros L T S0 H. apply (subregions_depth g n n') in H; [|exact L]. destruct (subregions_thres g n thres small thres' small' _ T S0 H) as (k & post & K & E). exists k. split; [exact K|].
  assert (LK : length k <= n). { pose proof (f_equal (@length _) E) as Q. rewrite app_length, firstn_length in Q. lia. } split; [exact LK|].
  intros i s I. assert (B : i < length k) by (apply nth_error_Some; congruence). rewrite <- (firstn_skipn n l), E, <- app_assoc. rewrite nth_error_app1 by exact B. exact I.
Qed.
(** A NaN threshold silently reports nothing. *)
Theorem C126_nan_threshold g n thres small l : is_nan thres = true -> subregions64 (tuned g n thres small) = Ok l -> l = [].
Proof.
  intros N H. unfold subregions64 in H. apply bind_ok in H as (f & _ & H). assert (l = choose64 (tuned g n thres small) f) by congruence. subst l. destruct f as [[h0 ss]|]; [|reflexivity]. cbn [choose64 tuned g64_small g64_thres].
  destruct (Beqb h0 BIGM64); [reflexivity|]. destruct (Bltb h0 small); [reflexivity|]. destruct ss as [|s ss]; [reflexivity|]. cbn [valid_prefix64]. unfold valid64. destruct thres; try discriminate N. reflexivity.
Qed.

(** ** a case: the value is 4 a + b, the heterogeneity its range; the search splits on a (range 5 to 1), then on b (1 to 0) *)
Definition range64 (x : list row64) : res b64 := match np_max64 (map (feat64 0) x), np_min64 (map (feat64 0) x) with Ok a, Ok b => Ok (fsub a b) | _, _ => Ok fzero end.
Definition ab_rows : list row64 := map (fun i => ([fofn (4 * (i / 2 mod 2) + i mod 2); fofn (i / 2 mod 2); fofn (i mod 2)], [])) (seq 0 8).
Definition ab : regions64 := mkRegions64 range64 sum_left ab_rows Cont [1; 2] [Cat; Cat] 10 2 20 2 thres8 small8 false.
Example ab_depths : show (subregions64 (tuned ab 2 thres8 small8)) = [(1, false, [4; 4]); (2, true, [2; 2; 2; 2])] /\ show (subregions64 (tuned ab 1 thres8 small8)) = [(1, false, [4; 4])] /\
  show (subregions64 (tuned ab 0 thres8 small8)) = [].
Proof. repeat split; vm_compute; reflexivity. Qed.
(** drops of 80% and 100%: 0.9 keeps neither (the first is not enough), 6 = heter_small_enough keeps neither *)
Example ab_thresholds : Bleb thres8 (fdiv (fofn 9) (fofn 10)) = true /\ show (subregions64 (tuned ab 2 (fdiv (fofn 9) (fofn 10)) small8)) = [] /\ Bleb small8 (fofn 6) = true /\ show (subregions64 (tuned ab 2 thres8 (fofn 6))) = [] /\
  show (subregions64 (tuned ab 2 fnan small8)) = [].
Proof. repeat split; vm_compute; reflexivity. Qed.

Print Assumptions C126_depth.
Print Assumptions C126_search.
Print Assumptions C126_thresholds.
Print Assumptions C126_options.
Print Assumptions C126_nan_threshold.
