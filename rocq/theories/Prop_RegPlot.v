(** Properties C63, C64: plots and instance effects of the regional classes. [rescale] is in PlotSpec.v; [effect],
    [with_choice], [node_rows] and [extrema] are in RegPlotProofs.v: the average effect in a result of eval, the same
    environment with other random draws, the instances of a node, the smallest and largest value of a feature. *)
From Verif Require Import Base Numpy Spec NumpyFacts Utils LocalProofs Helpers HelpersProofs Binning GlobalALE ALEState GlobalPDP GlobalShap
  PartSpec Partition PartSearch PartNodes Regional RegProofs RegNodes PlotSpec Vis VisProofs RegPlot RegPlotProofs Prop_Regional.
Open Scope Qc_scope.
Open Scope list_scope.
Local Opaque curve_points.

(** * C63  A regional plot shows the regional eval *)
(** RegionalPDP, RegionalDerPDP, RegionalShapDP, in any state of the object: the drawn curve is the effect that eval
    returns afterwards (whatever its random draws) at 30 points between the extrema of the node, on the scaled axes.
    Guard: the node is small enough for the global object to keep all its instances. *)
Theorem C63_curve_partial : forall x c st f node_idx het cv scale sy st' fig choice', (forall jac, q_kind c <> RRHALE jac) -> q_kind c <> RALE ->
  rfigure x c st f node_idx het cv scale sy = (st', Ok fig) ->
  (forall Z E, node_rows c st' f node_idx Z E -> kept_entirely (q_kind c) (length Z)) ->
  exists Z E lo hi ys g, node_rows c st' f node_idx Z E /\ extrema Z f lo hi /\
    let sx := match scale with None => None | Some l => nth_error l f end in
    curve fig = (map (rescale sx) (linspace lo hi 30), map (rescale sy) ys) /\
    reval (with_choice x choice') c st' f node_idx (linspace lo hi 30) false cv = (st', Ok g) /\ effect g = map Some ys.
Proof. exact figure_eval. Qed.
Print Assumptions C63_curve_partial.
(** RegionalRHALE: only when the feature was fitted with Greedy(init_nof_bins=100, min_points_per_bin=0, discount=0.3,
    cat_limit=15), the binning that eval uses whatever the fit. *)
Theorem C63_rhale_partial : forall x c st f node_idx het cv scale sy st' fig choice' jac, q_kind c = RRHALE jac ->
  rfigure x c st f node_idx het cv scale sy = (st', Ok fig) ->
  (forall Z E, node_rows c st' f node_idx Z E -> (Z.of_nat (length Z) <= q_nof c)%Z) ->
  qs_binning st' f = Some (MGreedy 100 (Some 0%nat) (Q2Qc (3#10)) 15) ->
  exists a b ys g, let grid := linspace a b 1000 in
    let sx := match scale with None => None | Some l => nth_error l f end in
    curve fig = (map (rescale sx) grid, map (rescale sy) ys) /\
    reval (with_choice x choice') c st' f node_idx grid true cv = (st', Ok g) /\ effect g = map Some ys.
Proof. exact rhale_eval. Qed.
Print Assumptions C63_rhale_partial.
(** the binning a string names here, with at least 10 instances per bin; an object stands for itself *)
Definition names (m m' : method) : Prop :=
  match m with
  | MStr s => (s = "greedy" /\ m' = MGreedy 100 (Some 10%nat) (Q2Qc (3#10)) 15) \/ (s = "dp" /\ m' = MDP 20 (Some 10%nat) (Q2Qc (3#10)) 15)
              \/ (s = "fixed" /\ m' = MFixed 100 (Some 10%nat) 15)
  | _ => m' = m
  end%string.
Lemma prep_names m m' : prep_binning_method m = Ok m' -> names m m'.
Proof.
  unfold prep_binning_method, names. destruct m as [s|n mp cl|n mp d cl|n mp d cl]; intros H; try (injection H as <-; reflexivity).
  destruct (String.eqb_spec s "greedy"); [injection H as <-; now left|]. destruct (String.eqb_spec s "dp"); [injection H as <-; right; now left|].
  destruct (String.eqb_spec s "fixed"); [injection H as <-; right; now right|discriminate].
Qed.
(** What RegionalRHALE and RegionalALE draw in general: the curve of a RHALE object of the node's instances (and effects),
    fitted with the binning method of the last fit. *)
Theorem C63_drawn : forall x c st f node_idx het cv scale sy st' fig, (q_kind c = RALE \/ exists j, q_kind c = RRHALE j) ->
  rfigure x c st f node_idx het cv scale sy = (st', Ok fig) ->
  exists Z E gc s m m' s1 s2 a b ys hs, let grid := linspace a b 1000 in
    let sx := match scale with None => None | Some l => nth_error l f end in
    node_rows c st' f node_idx Z E /\
    construct (x_choice x) (KRHALE (match q_kind c with RRHALE j => j | _ => None end)) (as_data c Z) (q_model c) (PyInt (q_nof c)) None E = Ok (gc, s) /\
    qs_binning st' f = Some m /\ names m m' /\ fit gc s [f] m' cv = (s1, Ok tt) /\
    eval gc (x_rt x) s1 f grid true cv = (s2, Ok (ys, hs)) /\ curve fig = (map (rescale sx) grid, map (rescale sy) ys).
Proof.
  intros x c st f node_idx het cv scale sy st' fig K H. destruct (rfigure_inv _ _ _ _ _ _ _ _ _ _ _ H) as (Z & E & sx & HN & HS & HD & _ & _).
  apply scale_of_rescale in HS. destruct (drawn_ale x c st' f Z E het cv sx sy fig K HD) as (gc & s & m & m' & s1 & [] & s2 & a & b & ys & hs & D).
  exists Z, E, gc, s, m, m', s1, s2, a, b, ys, hs. cbv zeta in *. change 1000%nat with curve_points. rewrite <- HS. split; [exact HN|]. destruct D as (D1 & D2 & D3 & D). apply prep_names in D3. exact (conj D1 (conj D2 (conj D3 D))).
Qed.
Print Assumptions C63_drawn.
(** Refuted for RegionalALE (default binning, no scaling): the model is a step function of feature 0, eval returns a curve
    that rises from 0 to 1/2, the drawn one is constantly 0 because the plot accumulates derivatives. *)
Definition ex63 : rconfig := ex_get (rconstruct ex_x RALE (mkData Float64 2 (map (fun i => [qn (Nat.div i 2); qn (Nat.modulo i 2)]) (seq 0 24)))
  (map (fun r => if Q2Qc (11#2) <? r@0 then r@1 else 0)) None (PyStr "all") None (Some [Cont; Cat]) 4 None).
Definition ex63_opts (m : method) : fitopts := mkFO (Q2Qc (1#10)) (Q2Qc (1 # 1000)) 1 3 2 AllFeatures false m (PyBool false) (PyStr "all") (PyInt 5) true.
Definition ends (r : res gfigure) := rmap (fun g => let (a, b) := curve g in (length b, show [a@0; a@999], show [b@0; b@999])) r.
Theorem C63_ale_refuted : exists x c o, q_kind c = RALE /\ fo_binning o = fo_binning (default_opts RALE) /\
  let st := fst (rfit x c qfresh [0%nat] o) in
  snd (rfit x c qfresh [0%nat] o) = Ok tt /\
  ends (snd (rfigure x c st 0 0 (PyBool false) (PyBool false) None None)) = Ok (1000%nat, [-1 # 2; 23 # 2], [0; 0])%Q /\
  shown (snd (reval x c st 0 0 (qs [0; 11]) false (PyBool false))) = Ok ([Some 0; Some (1 # 2)], None)%Q.
Proof.
  exists ex_x, ex63, (ex63_opts (MFixed 20 (Some 0%nat) 15)). split; [reflexivity|]. split; [reflexivity|]. cbv zeta. split; [computed|]. split; computed.
Qed.
Print Assumptions C63_ale_refuted.
(** Refuted for RegionalRHALE: after a fit with one bin the drawn curve of node 2 is a straight line from 0 to 4, the one
    of eval is not straight. *)
Definition ex63f : rconfig := ex_get (rconstruct ex_x (RRHALE (Some (map (fun r => [Q2Qc 2 * r@0 * r@1; r@0 * r@0]))))
  (mkData Float64 2 (map (fun i => [qn (Nat.div i 4); qn (Nat.modulo i 2)]) (seq 0 12))) (map (fun r => r@0 * r@0 * r@1)) None (PyStr "all") None (Some [Cont; Cat]) 4 None).
Theorem C63_rhale_refuted : exists x c o, (exists jac, q_kind c = RRHALE jac) /\
  let st := fst (rfit x c qfresh [0%nat] o) in
  snd (rfit x c qfresh [0%nat] o) = Ok tt /\
  rmap (fun g => let (a, b) := curve g in (show [a@0; a@333; a@999], show [b@0; b@333; b@999])) (snd (rfigure x c st 0 2 (PyBool false) (PyBool false) None None)) =
    Ok ([0; 2 # 3; 2], [0; 4 # 3; 4])%Q /\
  shown (snd (reval x c st 0 2 [0; Q2Qc (2 # 3); Q2Qc 2] false (PyBool false))) = Ok ([Some 0; Some (1 # 3); Some 4], None)%Q.
Proof.
  exists ex_x, ex63f, (ex63_opts (MFixed 1 (Some 0%nat) 1)). split; [eexists; reflexivity|]. cbv zeta. split; [computed|]. split; computed.
Qed.
Print Assumptions C63_rhale_refuted.
(** Refuted for the default binning "greedy": plot uses Greedy() with at least 10 instances per bin, eval uses "greedy" with
    at least 0. On the first object eval fails and plot works, on the second plot fails and eval works. *)
Definition ex63r : rconfig := ex_get (rconstruct ex_x (RRHALE (Some (map (fun r => [Q2Qc 2 * r@0 * r@1; r@0 * r@0]))))
  (mkData Float64 2 (map (fun i => [qn i; qn (Nat.modulo i 2)]) (seq 0 24))) (map (fun r => r@0 * r@0 * r@1)) None (PyStr "all") None (Some [Cont; Cat]) 4 None).
Theorem C63_greedy_refuted : exists x c1 c2 o fig y, (exists jac, q_kind c1 = RRHALE jac) /\ (exists jac, q_kind c2 = RRHALE jac) /\ fo_binning o = MStr "greedy" /\
  let st1 := fst (rfit x c1 qfresh [0%nat] o) in let st2 := fst (rfit x c2 qfresh [0%nat] o) in
  snd (rfit x c1 qfresh [0%nat] o) = Ok tt /\ snd (rfit x c2 qfresh [0%nat] o) = Ok tt /\
  snd (rfigure x c1 st1 0 0 (PyBool false) (PyBool false) None None) = Ok fig /\
  snd (reval x c1 st1 0 0 (qs [0; 1]) false (PyBool false)) = Raise ValueError /\
  snd (rfigure x c2 st2 0 0 (PyBool false) (PyBool false) None None) = Raise AssertionError /\
  snd (reval x c2 st2 0 0 (qs [0; 1]) false (PyBool false)) = Ok y.
Proof.
  set (o := ex63_opts (MStr "greedy")).
  destruct (is_ok_exists (snd (rfigure ex_x ex63r (fst (rfit ex_x ex63r qfresh [0%nat] o)) 0 0 (PyBool false) (PyBool false) None None)) ltac:(computed)) as [fig HF].
  destruct (is_ok_exists (snd (reval ex_x (ex_get ex_rhale) (fst (rfit ex_x (ex_get ex_rhale) qfresh [0%nat] o)) 0 0 (qs [0; 1]) false (PyBool false))) ltac:(computed)) as [y HY].
  exists ex_x, ex63r, (ex_get ex_rhale), o, fig, y. split; [eexists; reflexivity|]. split; [eexists; reflexivity|]. split; [reflexivity|]. cbv zeta.
  split; [computed|]. split; [computed|]. split; [exact HF|]. split; [apply raises_is; computed|]. split; [apply raises_is; computed|exact HY].
Qed.
Print Assumptions C63_greedy_refuted.
(** Instances: a RegionalPDP with a scaled axis, node 2; a RegionalRHALE fitted with the binning of C63_rhale_partial. *)
Example C63_instance : let c := ex_c 8 in let st := fst (rfit ex_x c qfresh [0%nat] (ex_opts (Q2Qc (1#10)) 1 2)) in
  let r := rfigure ex_x c st 0 2 (PyStr "std") (PyBool true) (Some [(Q2Qc 1, Q2Qc 2); (0, 1)]) (Some (0, Q2Qc 10)) in
  q_kind c = RPDP /\ rmap (fun g => let (a, b) := curve g in (length b, show [a@0; a@29], show [b@0; b@29])) (snd r) = Ok (30%nat, [3; 15], [-30; 30])%Q /\
  raises_of (rmap (fun p => length (fst (fst p))) (node_info c (fst r) 0 2)) = None /\
  rmap (fun p => map show (fst (fst p))) (node_info c (fst r) 0 2) = Ok [[1; 1]; [2; 1]; [4; 1]; [5; 1]; [7; 1]]%Q.
Proof. cbv zeta. split; [reflexivity|]. split; [computed|]. split; computed. Qed.
Example C63_rhale_instance : let c := ex_get ex_rhale in let o := ex63_opts (MGreedy 100 (Some 0%nat) (Q2Qc (3#10)) 15) in
  let st := fst (rfit ex_x c qfresh [0%nat] o) in
  snd (rfit ex_x c qfresh [0%nat] o) = Ok tt /\ (Z.of_nat (length (rows (q_data c))) <= q_nof c)%Z /\
  ends (snd (rfigure ex_x c st 0 0 (PyBool false) (PyBool false) (Some [(Q2Qc 10, Q2Qc 2); (0, 1); (0, 1)]) (Some (0, Q2Qc 3)))) = Ok (1000%nat, [9; 13], [0; 12])%Q.
Proof. cbv zeta. split; [computed|]. split; [apply Z.leb_le; computed|computed]. Qed.

(** * C64  Instance effects stay aligned with the instances *)
(** A RegionalRHALE constructed with a Jacobian that works row by row, on any dataset, subsample and axis limits. *)
Theorem C64_jacobian : forall x j X model nof al types cl names c,
  rconstruct x (RRHALE (Some (map j))) X model None nof al types cl names = Ok c -> q_effects c = Some (map j (rows (q_data c))).
Proof.
  intros x j X model nof al types cl names c H. unfold rconstruct in H. apply bind_ok in H as (e & H0 & H). injection H0 as <-.
  apply bind_ok in H as ([n idx] & H1 & H). apply bind_ok in H as (rs & H2 & H). apply bind_ok in H as (es & H3 & H). apply bind_ok in H as ([mins maxs] & H4 & H). injection H as <-. simpl.
  clear H1 H4. revert es H3. unfold select_rows, take in *. revert rs H2. induction idx as [|i idx IH]; intros rs H2 es H3; simpl in *.
  - injection H2 as <-. now injection H3 as <-.
  - apply bind_ok in H2 as (a & A1 & H2). apply bind_ok in H2 as (b & B1 & H2). injection H2 as <-. specialize (IH b B1).
    unfold getn in A1. destruct (nth_error (rows X) i) as [r|] eqn:N; [|discriminate]. injection A1 as ->.
    unfold getn in H3 at 1. rewrite nth_error_map, N in H3. simpl in H3. destruct (mapM (getn (map j (rows X))) idx) as [v|] eqn:M; [|discriminate]. simpl in H3. injection H3 as <-.
    specialize (IH (Some v) eq_refl). injection IH as ->. reflexivity.
Qed.
Print Assumptions C64_jacobian.
(** With effects given by the user: the same rows of both. *)
Theorem C64_given : forall x jac X E model nof al types cl names c,
  rconstruct x (RRHALE jac) X model (Some E) nof al types cl names = Ok c ->
  exists idx E', q_effects c = Some E' /\ length (rows (q_data c)) = length idx /\ length E' = length idx /\
    forall i, (i < length idx)%nat -> nth_error (rows (q_data c)) i = nth_error (rows X) (nth i idx 0%nat) /\ nth_error E' i = nth_error E (nth i idx 0%nat).
Proof.
  intros x jac X E model nof al types cl names c H. unfold rconstruct in H. apply bind_ok in H as (e & H0 & H). injection H0 as <-.
  apply bind_ok in H as ([n idx] & H1 & H). apply bind_ok in H as (rs & H2 & H). apply bind_ok in H as (es & H3 & H). apply bind_ok in H as ([mins maxs] & H4 & H). injection H as <-. simpl.
  destruct (select_rows E idx) as [E'|] eqn:HE; [|discriminate]. injection H3 as <-. exists idx, E'. split; [reflexivity|].
  assert (T : forall (l : Mat) r, select_rows l idx = Ok r -> length r = length idx /\ forall i, (i < length idx)%nat -> nth_error r i = nth_error l (nth i idx 0%nat)).
  { clear. unfold select_rows, take. induction idx as [|a idx IH]; intros l r H; simpl in H; [injection H as <-; split; [reflexivity|intros i Hi; inversion Hi]|].
    apply bind_ok in H as (u & U & H). apply bind_ok in H as (v & V & H). injection H as <-. destruct (IH l v V) as [L I]. split; [simpl; now rewrite L|].
    intros [|i] Hi; simpl in *; [|apply I; lia]. unfold getn in U. destruct (nth_error l a); [now injection U as ->|discriminate]. }
  destruct (T _ _ H2) as [L1 I1]. destruct (T _ _ HE) as [L2 I2]. split; [exact L1|]. split; [exact L2|]. intros i Hi. split; [now apply I1|now apply I2].
Qed.
Print Assumptions C64_given.
(** Without Jacobian and effects: the forward differences of the model at the rows of its data. *)
Theorem C64_numerical : forall x g X nof al types cl names c, dt X = Float64 ->
  rconstruct x (RRHALE None) X (map g) None nof al types cl names = Ok c ->
  q_effects c = Some (map (fun r => map (fun k => (g (shift_feature r k EPS) - g r) / EPS) (seq 0 (dim X))) (rows (q_data c))).
Proof.
  intros x g X nof al types cl names c D H. set (j := fun r => map (fun k => (g (shift_feature r k EPS) - g r) / EPS) (seq 0 (dim X))).
  assert (H' : exists c', rconstruct x (RRHALE (Some (map j))) X (map g) None nof al types cl names = Ok c' /\ q_effects c' = q_effects c /\ q_data c' = q_data c).
  { unfold rconstruct, initial_effects in *. rewrite (jacobian_eq g X EPS D) in H by (intros E; apply (f_equal this) in E; vm_compute in E; discriminate).
    cbn [rmap bind] in *. fold j in H. destruct (prep_nof_instances (x_choice x) nof (length (rows X))) as [[n idx]|]; [|discriminate]. cbn [bind] in *.
    destruct (select_rows (rows X) idx) as [rs|]; [|discriminate]. cbn [bind] in *. destruct (select_rows (map j (rows X)) idx) as [es|]; [|discriminate]. cbn [rmap bind] in *.
    destruct (match al with Some p => Ok p | None => axis_limits_from_data X end) as [[mins maxs]|]; [|discriminate]. cbn [bind] in *. injection H as <-. eexists. split; [reflexivity|]. split; reflexivity. }
  destruct H' as (c' & H1 & H2 & H3). rewrite <- H2, <- H3. exact (C64_jacobian _ _ _ _ _ _ _ _ _ _ H1).
Qed.
Print Assumptions C64_numerical.
(** Two of three instances, in another order: the effects follow. *)
Example C64_instance :
  let x := mkX (fun v => v) (fun N n => map (fun i => N - 1 - i)%nat (seq 0 n)) (fun _ => Raise ValueError) (fun l => seq 0 (length l)) (fun _ _ => Raise ValueError) (fun _ => ""%string) in
  let X := mkData Float64 2 [qs [1; 5]; qs [2; 6]; qs [3; 7]] in let g := fun r => r@0 * r@1 in let j := fun r => [r@1; r@0] in
  let pair r := rmap (fun c => (map show (rows (q_data c)), option_map (map show) (q_effects c))) r in
  pair (rconstruct x (RRHALE (Some (map j))) X (map g) None (PyInt 2) None None 4 None) = Ok ([[3; 7]; [2; 6]], Some [[7; 3]; [6; 2]])%Q /\
  pair (rconstruct x (RRHALE None) X (map g) (Some [qs [10]; qs [20]; qs [30]]) (PyInt 2) None None 4 None) = Ok ([[3; 7]; [2; 6]], Some [[30]; [20]])%Q /\
  pair (rconstruct x (RRHALE None) X (map g) None (PyInt 2) None None 4 None) = Ok ([[3; 7]; [2; 6]], Some [[7; 3]; [6; 2]])%Q.
Proof. cbv zeta. split; [|split]; computed. Qed.
