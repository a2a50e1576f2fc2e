(** C97: a small change of the model changes the effects by little. *)
From Verif Require Import Base Numpy Spec ALESpec NumpyFacts Utils UtilsProofs FillProofs AccProofs LocalProofs ParamsProofs
  Helpers Integrate HelpersProofs Binning BinProofs GreedyProofs DPProofs LimitsProofs GlobalALE ALEState ALEHist ALEFit ALEProps ALESuccess ALECurves
  ALESpecFacts ALEDefProofs LawsProofs GlobalPDP PDPFacts PDPProofs Prop_PDP Prop_PDPLaws Prop_GlobalALE Prop_ALEDef Prop_ALELaws Query Prop_Query Stable.
Open Scope Qc_scope.
Open Scope list_scope.

(** * C97  ALE: models that differ by at most M at the points asked *)
(** Over any stretch of the axis the two curves grow alike, up to 2M/w per unit, w the width of the first bin. *)
Theorem C97_ale : forall c c' g g' M rt ks ks' f n mp mp' cl cv cv' st1 st1' xs het het' st2 st2' y h y' h',
  c_kind c = KALE -> c_kind c' = KALE -> c_model c = map g -> c_model c' = map g' -> but_model c c' -> (1 <= n)%nat -> (c_mins c)@f < (c_maxs c)@f ->
  (forall q, asked c n cl f q -> Qcabs (g q - g' q) <= M) ->
  fit c (run c rt (fresh None) ks) [f] (MFixed n mp cl) cv = (st1, Ok tt) ->
  fit c' (run c' rt (fresh None) ks') [f] (MFixed n mp' cl) cv = (st1', Ok tt) -> cv' = cv \/ cv' = PyBool false ->
  eval c rt st1 f xs het cv' = (st2, Ok (y, h)) -> eval c' rt st1' f xs het' cv' = (st2', Ok (y', h')) ->
  (c_maxs c)@f <= Q2Qc 100000000 -> (forall x, In x xs -> x <= Q2Qc 100000000) ->
  exists l l', fixed_binning n cl (map (fun r => r@f) (inside_range (c_mins c)@f (c_maxs c)@f f (rows (c_data c)))) (c_mins c)@f (c_maxs c)@f l /\ widened l l' /\
    length y = length xs /\ length y' = length xs /\
    forall i j, (i < length xs)%nat -> (j < length xs)%nat -> xs@i <= xs@j ->
      Qcabs ((y@j - y@i) - (y'@j - y'@i)) <= Q2Qc 2 * M / (l'@1 - l'@0) * (xs@j - xs@i).
Proof.
  intros c c' g g' M rt ks ks' f n mp mp' cl cv cv' st1 st1' xs het het' st2 st2' y h y' h' K K' Mo Mo' (DA & MI & MA) Hn LH HM F F' Hcv H H' HB HX.
  assert (HB' : (c_maxs c')@f <= Q2Qc 100000000) by (rewrite <- MA; exact HB).
  destruct (C71_ale_requested_bins c g rt ks f n mp cl cv cv' st1 xs het st2 y h K Mo Hn F Hcv H HB HX) as (ce & R & A).
  destruct (C71_ale_requested_bins c' g' rt ks' f n mp' cl cv cv' st1' xs het' st2' y' h' K' Mo' Hn F' Hcv H' HB' HX) as (ce' & R' & A').
  assert (RU : forall a b, requested cv' a -> requested cv' b -> a = b) by (unfold requested; intuition congruence). rewrite (RU ce' ce R' R) in A'.
  unfold ale_effect in A, A'. cbv zeta in A, A'. rewrite <- DA, <- MI, <- MA in A'.
  destruct A as (l & l' & b1 & v1 & FB & W & _ & MM1 & _ & -> & _). destruct A' as (k & k' & b2 & v2 & FB2 & W2 & _ & MM2 & _ & -> & _).
  rewrite <- (fixed_binning_unique _ _ _ _ _ _ l k (fun x => conj (fun H => H) (fun H => H)) FB FB2) in W2. rewrite <- (widened_unique l l' k' W W2) in *.
  exists l, l'. split; [exact FB|]. split; [exact W|]. split; [apply map_length|]. split; [apply map_length|]. intros i j Hi Hj XY. rewrite !map_nth0 by assumption.
  destruct (fixed_binning_increasing _ _ _ _ _ _ Hn LH FB) as (Il & L2). destruct (widened_increasing l l' Il L2 W) as (Il' & L2').
  match goal with |- Qcabs ?t <= _ => replace t with ((step_integral l' b1 xs@j - step_integral l' b1 xs@i) - (step_integral l' b2 xs@j - step_integral l' b2 xs@i)) by ring end.
  eapply (curves_close l'); eauto. intros q r Hq Hr. cbv beta. unfold bin_of in Hr. apply filter_In in Hr as (HZ & HI).
  unfold in_bin in HI. apply andb_prop in HI as (HI1 & HI2). apply Qcleb_le in HI1.
  assert (HI3 : r@f < l'@(S q)).
  { apply orb_prop in HI2 as [HI2|HI2]; [now apply Qcltb_lt|]. apply andb_prop in HI2 as (Q1 & Q2). apply Nat.eqb_eq in Q1.
    assert (RL : r@f < l'@(length l' - 1)).
    { eapply binning_last; [exact Hn|exact FB|exact W| |]; [apply in_map_iff; exists r; split; [reflexivity|exact HZ]|].
      unfold inside_range in HZ. apply filter_In in HZ as (_ & HZ). apply andb_prop in HZ as (_ & HZ). now apply Qcleb_le. }
    replace (length l' - 1)%nat with (S q) in RL by lia. exact RL. }
  assert (AS : forall v, v = l'@q \/ v = l'@(S q) -> Qcabs (g (with_feature r f (store (dt (c_data c)) v)) - g' (with_feature r f (store (dt (c_data c)) v))) <= M).
  { intros v Hv. apply HM. unfold asked. exists l, l'. split; [exact FB|]. split; [exact W|]. exists r, q. repeat split; auto; [lia|]. destruct Hv as [->| ->]; auto. }
  pose proof (AS _ (or_introl eq_refl)) as B1. pose proof (AS _ (or_intror eq_refl)) as B2. apply Qcabs_iff in B1, B2.
  assert (WP : 0 < l'@1 - l'@0) by (pose proof (Il' 0%nat 1%nat ltac:(lia) ltac:(lia)); qlra).
  assert (NZ : l'@1 - l'@0 <> 0) by (intros E; rewrite E in WP; discriminate).
  unfold slope. set (w := l'@1 - l'@0) in *. set (a := g (with_feature r f (store _ l'@(S q)))) in *. set (b := g (with_feature r f (store _ l'@q))) in *. set (a' := g' (with_feature r f (store _ l'@(S q)))) in *. set (b' := g' (with_feature r f (store _ l'@q))) in *.
  clearbody a b a' b' w. replace ((a - b) / w - (a' - b') / w) with (((a - a') - (b - b')) / w) by (field; exact NZ).
  assert (T : Q2Qc 2 * M = M + M) by (replace (Q2Qc 2) with (1 + 1) by (apply Qc_is_canon; reflexivity); ring). rewrite T.
  assert (IW : 0 <= / w) by (apply Qclt_le_weak, Qcinv_pos; exact WP).
  apply Qcabs_iff. unfold Qcdiv. split.
  - replace (- ((M + M) * / w)) with ((- (M + M)) * / w) by ring. apply Qcmult_le_compat_r; [qlra|exact IW].
  - apply Qcmult_le_compat_r; [qlra|exact IW].
Qed.
Print Assumptions C97_ale.

(** * C97  RHALE with a fixed binning: effects that differ by at most M *)
Theorem C97_rhale : forall c c' j j' U U' E E' M rt ks ks' f n mp mp' cl cv cv' st1 st1' xs het het' st2 st2' y h y' h',
  c_kind c = KRHALE j -> c_kind c' = KRHALE j' -> but_model c c' ->
  match U with Some e => Ok e | None => compile c j end = Ok E -> match U' with Some e => Ok e | None => compile c' j' end = Ok E' ->
  (forall i, (i < length (rows (c_data c)))%nat -> Qcabs ((nth i E [])@f - (nth i E' [])@f) <= M) -> (1 <= n)%nat -> (c_mins c)@f < (c_maxs c)@f ->
  fit c (run c rt (fresh U) ks) [f] (MFixed n mp cl) cv = (st1, Ok tt) ->
  fit c' (run c' rt (fresh U') ks') [f] (MFixed n mp' cl) cv = (st1', Ok tt) -> cv' = cv \/ cv' = PyBool false ->
  eval c rt st1 f xs het cv' = (st2, Ok (y, h)) -> eval c' rt st1' f xs het' cv' = (st2', Ok (y', h')) ->
  (c_maxs c)@f <= Q2Qc 100000000 -> (forall x, In x xs -> x <= Q2Qc 100000000) ->
  length y = length xs /\ length y' = length xs /\
  forall i j, (i < length xs)%nat -> (j < length xs)%nat -> xs@i <= xs@j -> Qcabs ((y@j - y@i) - (y'@j - y'@i)) <= M * (xs@j - xs@i).
Proof.
  intros c c' j j' U U' E E' M rt ks ks' f n mp mp' cl cv cv' st1 st1' xs het het' st2 st2' y h y' h' K K' (DA & MI & MA) Q Q' HM Hn LH F F' Hcv H H' HB HX.
  assert (HB' : (c_maxs c')@f <= Q2Qc 100000000) by (rewrite <- MA; exact HB).
  destruct (C72_rhale_requested_bins c j U E rt ks f (MFixed n mp cl) cv cv' st1 xs het st2 y h K Q Hn F Hcv H HB HX) as (L1 & ce & R & A).
  destruct (C72_rhale_requested_bins c' j' U' E' rt ks' f (MFixed n mp' cl) cv cv' st1' xs het' st2' y' h' K' Q' Hn F' Hcv H' HB' HX) as (L2 & ce' & R' & A').
  assert (RU : forall a b, requested cv' a -> requested cv' b -> a = b) by (unfold requested; intuition congruence). rewrite (RU ce' ce R' R) in A'.
  unfold rhale_effect in A, A'. cbv zeta in A, A'. rewrite <- DA, <- MI, <- MA in A'. rewrite <- DA in L2.
  destruct A as (l & b1 & v1 & FB & _ & MM1 & _ & -> & _). destruct A' as (k & b2 & v2 & FB2 & _ & MM2 & _ & -> & _).
  set (p := fun r : list Qc => ((c_mins c)@f <=? r@f) && (r@f <=? (c_maxs c)@f)). set (X := rows (c_data c)) in *.
  pose proof (fst_idx X E f p L1) as P1. pose proof (fst_idx X E' f p L2) as P2. unfold p in P1, P2. rewrite P1 in FB. rewrite P2 in FB2.
  cbn [find_limits_b] in FB, FB2. apply fixed_find_binning in FB; [|exact Hn]. apply fixed_find_binning in FB2; [|exact Hn]. cbn [b_xs b_lo b_hi] in FB, FB2.
  rewrite <- (fixed_binning_unique _ _ _ _ _ _ l k (fun x => conj (fun H => H) (fun H => H)) FB FB2) in *.
  destruct (fixed_binning_increasing _ _ _ _ _ _ Hn LH FB) as (Il & LL2).
  split; [apply map_length|]. split; [apply map_length|]. intros i i' Hi Hj XY. rewrite !map_nth0 by assumption.
  match goal with |- Qcabs ?t <= _ => replace t with ((step_integral l b1 xs@i' - step_integral l b1 xs@i) - (step_integral l b2 xs@i' - step_integral l b2 xs@i)) by ring end.
  set (N := filter (fun i => p (nth i X [])) (seq 0 (length X))).
  apply (curves_close l (fun k => filter (fun i => in_bin l k (nth i X [])@f) N) (fun _ i => (nth i E [])@f) (fun _ i => (nth i E' [])@f)); auto.
  - unfold bin_means in *. refine (eq_ind _ (fun z => filled z b1) MM1 _ _). apply map_ext. intros k0. f_equal. exact (pairs_idx X E f p l k0 L1).
  - unfold bin_means in *. refine (eq_ind _ (fun z => filled z b2) MM2 _ _). apply map_ext. intros k0. f_equal. exact (pairs_idx X E' f p l k0 L2).
  - intros k0 i0 _ Hi0. cbv beta. apply HM. unfold N in Hi0. apply filter_In in Hi0 as (Hi0 & _). apply filter_In in Hi0 as (Hi0 & _). apply in_seq in Hi0. lia.
Qed.
Print Assumptions C97_rhale.

(** * C97  PDP and d-PDP *)
(** The factor: 1 for the values asked; 10^6 for the quotients of d-PDP without a Jacobian; twice that when the curves are centered. *)
Definition pdp_factor (c : pconfig) (cv : pyval) : Qc :=
  (match p_kind c with KDer None => Q2Qc 1000000 | _ => 1 end) * (match cv with PyBool false => 1 | _ => Q2Qc 2 end).
Theorem C97_pdp : forall c c' g g' G G' X M rt s xs cv vec, row_object c (dim X) g G -> row_object c' (dim X) g' G' -> wf_data X -> limits_ok c (dim X) ->
  match p_kind c, p_kind c' with KPDP, KPDP | KDer None, KDer None | KDer (Some _), KDer (Some _) => True | _, _ => False end ->
  p_mins c = p_mins c' -> p_maxs c = p_maxs c' ->
  (s < dim X)%nat -> (p_mins c)@s < (p_maxs c)@s -> vec = true \/ xs <> [] -> (exists r, In r (rows X) /\ (p_mins c)@s <= r@s <= (p_maxs c)@s) ->
  (exists ce, requested cv ce) ->
  (forall q, pdp_asked c X s xs cv q -> Qcabs (match p_kind c with KDer (Some _) => nth s (G q) 0 - nth s (G' q) 0 | _ => g q - g' q end) <= M) ->
  exists y y', snd (peval c rt (pfresh X) s xs false cv false vec) = Ok (OMean (map Some y)) /\
    snd (peval c' rt (pfresh X) s xs false cv false vec) = Ok (OMean (map Some y')) /\ length y = length xs /\ length y' = length xs /\
    forall i, (i < length xs)%nat -> Qcabs (y@i - y'@i) <= pdp_factor c cv * M.
Proof.
  intros c c' g g' G G' X M rt s xs cv vec RO RO' W LIM KK MI MA S LH V (r0 & Hr0 & Br0) (cq & RQ) A.
  assert (LIM' : limits_ok c' (dim X)) by (unfold limits_ok in *; now rewrite <- MI, <- MA).
  assert (PCX : exists ce, prep_cent cv = Ok ce). { unfold requested in RQ. destruct RQ as [(-> & _)|[(-> & _)|([->| ->] & _)]]; eexists; reflexivity. }
  destruct PCX as (ce & PC). rewrite (peval_fresh c g G X RO W LIM rt s xs false cv ce false vec PC S LH V).
  rewrite (peval_fresh c' g' G' X RO' W LIM' rt s xs false cv ce false vec PC S) by (auto; now rewrite <- MI, <- MA).
  unfold shift_at. rewrite <- MI, <- MA. assert (EW : within c' [s] X = within c [s] X) by (unfold within, in_limits; now rewrite MI, MA). rewrite EW.
  set (v := pvalue (p_kind c) (dt X) g G s). set (v' := pvalue (p_kind c') (dt X) g' G' s).
  set (lo := (p_mins c)@s) in *. set (hi := (p_maxs c)@s) in *. set (Z := rows (within c [s] X)).
  assert (NZ : Z <> []). { intros E. assert (In r0 Z); [|rewrite E in *; contradiction]. unfold Z, within. cbn [rows]. apply filter_In. split; [exact Hr0|]. cbn [forallb]. rewrite andb_true_r. unfold in_limits. apply andb_true_intro. split; apply Qcleb_le; apply Br0. }
  set (pos := fun z => In z xs \/ (cv = PyStr "zero_start" /\ z = lo) \/ ((cv = PyBool true \/ cv = PyStr "zero_integral") /\ exists i, (i <= 99)%nat /\ z = grid lo hi 99 i)).
  set (D := (match p_kind c with KDer None => Q2Qc 1000000 | _ => 1 end) * M).
  assert (VV : forall r x, In r Z -> pos x -> Qcabs (v r x - v' r x) <= D).
  { intros r x Hr Px. unfold Z, within in Hr. cbn [rows] in Hr. apply filter_In in Hr as (Hr & HL). cbn [forallb] in HL. rewrite andb_true_r in HL. unfold in_limits in HL.
    apply andb_prop in HL as (HL1 & HL2). apply Qcleb_le in HL1, HL2.
    assert (AQ : forall z, pdp_positions c s xs cv z -> pdp_asked c X s xs cv (list_set r s (store (dt X) z))) by (intros z Hz; exists r, z; repeat split; auto).
    unfold v, v', pvalue, D. unfold pdp_positions in AQ. fold lo hi in AQ. cbv zeta in AQ. fold (pos) in AQ.
    destruct (p_kind c) as [|[jj|]], (p_kind c') as [|[jj'|]]; try contradiction.
    - replace (1 * M) with M by ring. apply A, AQ. exact Px.
    - replace (1 * M) with M by ring. apply A, AQ. exact Px.
    - pose proof (A _ (AQ (x + STEP) ltac:(left; replace (x + STEP - Q2Qc (1 # 1000000)) with x by (unfold STEP; ring); exact Px))) as A1.
      pose proof (A _ (AQ (x - STEP) ltac:(right; replace (x - STEP + Q2Qc (1 # 1000000)) with x by (unfold STEP; ring); exact Px))) as A2.
      apply Qcabs_iff in A1, A2. set (a := g (list_set r s (store (dt X) (x + STEP)))) in *. set (b := g (list_set r s (store (dt X) (x - STEP)))) in *. set (a' := g' (list_set r s (store (dt X) (x + STEP)))) in *. set (b' := g' (list_set r s (store (dt X) (x - STEP)))) in *. clearbody a b a' b'.
      assert (ST : / (Q2Qc 2 * STEP) = Q2Qc 500000) by (apply Qc_is_canon; vm_compute; reflexivity). unfold Qcdiv. rewrite ST.
      replace ((a - b) * Q2Qc 500000 - (a' - b') * Q2Qc 500000) with (((a - a') - (b - b')) * Q2Qc 500000) by ring.
      assert (T : Q2Qc 1000000 * M = (M + M) * Q2Qc 500000) by (replace (Q2Qc 1000000) with ((1 + 1) * Q2Qc 500000) by (apply Qc_is_canon; vm_compute; reflexivity); ring). rewrite T.
      assert (IW : 0 <= Q2Qc 500000) by (vm_compute; discriminate).
      apply Qcabs_iff. split; [replace (- ((M + M) * Q2Qc 500000)) with ((- (M + M)) * Q2Qc 500000) by ring|]; apply Qcmult_le_compat_r; try exact IW; qlra. }
  assert (SH : forall r, In r Z -> ce <> NoCent -> Qcabs (shift v lo hi 100 ce r - shift v' lo hi 100 ce r) <= D).
  { intros r Hr NC. apply prep_cent_requested in PC. unfold requested in PC. unfold shift. destruct ce; [congruence| |]; cbn [cent_of] in PC.
    - apply VV; [exact Hr|]. right. left. split; [|reflexivity]. intuition congruence.
    - apply mean_close; [discriminate|]. intros x Hx. apply VV; [exact Hr|]. right. right. split; [intuition congruence|].
      apply (In_nth _ _ 0) in Hx as (i & Hi & <-). rewrite linspace_length in Hi. exists i. split; [lia|]. apply (linspace_grid lo hi 99 i); lia. }
  exists (map (fun x => mean (map (fun r => v r x - shift v lo hi 100 ce r) Z)) xs), (map (fun x => mean (map (fun r => v' r x - shift v' lo hi 100 ce r) Z)) xs).
  assert (RM : forall u sh, row_means (centered u sh Z xs) = map Some (map (fun x => mean (map (fun r => u r x - sh r) Z)) xs)).
  { intros u sh. unfold row_means, centered. rewrite !map_map. apply map_ext. intros x. apply np_mean_some. intros E. apply map_eq_nil in E. contradiction. }
  unfold summary. rewrite !RM. split; [reflexivity|]. split; [reflexivity|]. rewrite !map_length. split; [reflexivity|]. split; [reflexivity|].
  intros i Hi. rewrite !map_nth0 by exact Hi. apply mean_close; [exact NZ|]. intros r Hr.
  pose proof (VV r xs@i Hr (or_introl (nth_In _ _ Hi))) as B1. apply Qcabs_iff in B1. specialize (SH r Hr).
  assert (PF : pdp_factor c cv * M = match cv with PyBool false => D | _ => D + D end).
  { unfold pdp_factor, D. set (z := match p_kind c with KDer None => Q2Qc 1000000 | _ => 1 end). destruct cv as [[|]| | | |]; replace (Q2Qc 2) with (1 + 1) by (apply Qc_is_canon; reflexivity); ring. }
  rewrite PF. apply Qcabs_iff. apply prep_cent_requested in PC. unfold requested in PC.
  destruct ce; cbn [cent_of] in PC.
  - assert (cv = PyBool false) as -> by intuition congruence. unfold shift. split; qlra.
  - assert (cv = PyStr "zero_start") as -> by intuition congruence. specialize (SH ltac:(discriminate)). apply Qcabs_iff in SH. split; qlra.
  - specialize (SH ltac:(discriminate)). apply Qcabs_iff in SH. assert (CV : cv = PyBool true \/ cv = PyStr "zero_integral") by intuition congruence. destruct CV as [->| ->]; split; qlra.
Qed.
Print Assumptions C97_pdp.

(** * C97  Examples *)
(** x_0*x_1 and the same model with a bounded error. *)
Definition ex97 (g : list Qc -> Qc) := mkCfg KALE ex75X (map g) (qs [0; 0]) (qs [4; 7]).
Definition ex97e (r : list Qc) : Qc := r@0 * r@1 + (if r@1 <=? Q2Qc 3 then Q2Qc (1 # 10) else - Q2Qc (1 # 10)).
Definition ex97run (g : list Qc -> Qc) :=
  rmap (fun p => show (fst p)) (snd (eval (ex97 g) (fun v => v) (fst (fit (ex97 g) (fresh None) [0%nat] (MFixed 2 (Some 0%nat) 2) (PyBool true))) 0 (qs [0; 1; 3; 4]) true (PyBool true))).
Example C97_ale_instance : (forall q, Qcabs (q@0 * q@1 - ex97e q) <= Q2Qc (1 # 10)) /\
  snd (fit (ex97 ex97e) (fresh None) [0%nat] (MFixed 2 (Some 0%nat) 2) (PyBool true)) = Ok tt /\ (exists y, ex97run ex97e = Ok y) /\ (exists y, ex97run (fun r => r@0 * r@1) = Ok y).
Proof.
  split.
  - intros q. unfold ex97e. set (z := q@0 * q@1). clearbody z. apply Qcabs_iff. assert (0 < Q2Qc (1 # 10)) by reflexivity. destruct (q@1 <=? Q2Qc 3); split; qlra.
  - split; [vm_compute; reflexivity|]. split; eexists; vm_compute; reflexivity.
Qed.
(** The greedy binning is not stable: 1e-9 on the effects decides whether two bins are merged, and moves the curve by more than 4/5. *)
Definition ex97X := mkData Float64 1 [[Q2Qc 0]; [Q2Qc (1 # 2)]; [Q2Qc (5 # 4)]; [Q2Qc (5 # 4)]; [Q2Qc (3 # 2)]; [Q2Qc (3 # 2)]; [Q2Qc 2]; [Q2Qc 2]].
Definition ex97E (t : Q) : list (list Qc) := [[Q2Qc 0]; [Q2Qc 2]; [Q2Qc t]; [Q2Qc t]; [Q2Qc t]; [Q2Qc t]; [Q2Qc t]; [Q2Qc t]].
Definition ex97r := mkCfg (KRHALE None) ex97X (map (fun _ => 0)) [Q2Qc 0] [Q2Qc 2].
Definition ex97greedy (t : Q) :=
  snd (eval ex97r (fun v => v) (fst (fit ex97r (fresh (Some (ex97E t))) [0%nat] (MGreedy 2 (Some 2%nat) 0 0) (PyBool false))) 0 (qs [0; 1]) false (PyBool false)).
Theorem C97_greedy_differs : exists y y' : list Qc,
  (forall i, (i < 8)%nat -> Qcabs ((nth i (ex97E (2154700539 # 1000000000)) [])@0 - (nth i (ex97E (2154700538 # 1000000000)) [])@0) <= Q2Qc (1 # 1000000000)) /\
  ex97greedy (2154700539 # 1000000000) = Ok (y, None) /\ ex97greedy (2154700538 # 1000000000) = Ok (y', None) /\
  Q2Qc (4 # 5) <= Qcabs ((y@1 - y@0) - (y'@1 - y'@0)).
Proof.
  exists (match ex97greedy (2154700539 # 1000000000) with Ok (y, _) => y | _ => [] end), (match ex97greedy (2154700538 # 1000000000) with Ok (y, _) => y | _ => [] end).
  split.
  - intros i Hi. do 8 (destruct i as [|i]; [vm_compute; discriminate|]). lia.
  - split; [vm_compute; reflexivity|]. split; [vm_compute; reflexivity|]. vm_compute. discriminate.
Qed.
Print Assumptions C97_greedy_differs.
