(** Property C87: the PDP inherits the shape of the ICE curves. *)
From Verif Require Import Base Numpy Spec NumpyFacts Utils UtilsProofs LocalProofs Helpers HelpersProofs ALESpecFacts GlobalALE GlobalPDP PDPProofs PDPFacts Prop_PDP.
Open Scope Qc_scope.
Open Scope list_scope.

(** [v r t] is the value at [t] of the ICE curve (PDP) or d-ICE curve (DerPDP) of the instance [r]; the model and the
    Jacobian work instance by instance. *)
Definition ice_curve (c : pconfig) (X : data) (f : nat) (v : list Qc -> Qc -> Qc) : Prop :=
  dt X = Float64 /\ exists g, p_model c = map g /\
  match p_kind c with
  | KPDP => forall r t, v r t = g (with_feature r f t)
  | KDer (Some J) => exists G, J = map G /\ (forall r, length r = dim X -> length (G r) = dim X) /\ forall r t, v r t = (G (with_feature r f t))@f
  | KDer None => forall r t, v r t = (g (with_feature r f (t + Q2Qc (1 # 1000000))) - g (with_feature r f (t - Q2Qc (1 # 1000000)))) / Q2Qc (1 # 500000)
  end.
(** The mean curve in what eval returns. *)
Definition mean_curve (out : pout) : list NQ := match out with OMean y => y | OMeanStd y _ => y | OAll _ => [] end.

Lemma curve_values c X f v : ice_curve c X f v -> exists g G, row_object c (dim X) g G /\ forall r t, v r t = pvalue (p_kind c) (dt X) g G f r t.
Proof.
  intros (DT & g & HM & HK). unfold row_object. rewrite DT. destruct (p_kind c) as [|[J|]].
  - exists g, (fun r => r). split; [split; [exact HM|exact I]|exact HK].
  - destruct HK as (G & -> & HL & HK). exists g, G. split; [split; [exact HM|split; [reflexivity|exact HL]]|exact HK].
  - exists g, (fun r => r). split; [split; [exact HM|exact I]|]. intros r t. rewrite HK. unfold pvalue. rewrite step2. reflexivity.
Qed.
Lemma Qcabs_iff a b : Qcabs a <= b <-> - b <= a /\ a <= b.
Proof.
  unfold Qcabs. destruct (0 <=? a) eqn:E; [apply Qcleb_le in E|apply Qcleb_gt in E]; split; intros H; [split; qlra|apply H|split; qlra|destruct H; qlra].
Qed.
Lemma mean_sum {A B} (w : B -> Qc) (p : B -> A -> Qc) K (X : list A) : X <> [] ->
  sumq (map (fun k => w k * mean (map (p k) X)) K) = mean (map (fun r => sumq (map (fun k => w k * p k r) K)) X).
Proof.
  intros NX. induction K as [|k K IH]; [simpl; symmetry; now apply mean_map_const|]. cbn [map]. rewrite sumq_cons, IH.
  transitivity (mean (map (fun r => w k * p k r + 1 * sumq (map (fun i => w i * p i r) K)) X)); [rewrite mean_linear by exact NX; ring|].
  f_equal. apply map_ext. intros r. rewrite sumq_cons. ring.
Qed.

Definition centerings : list pyval := [PyBool false; PyBool true; PyStr "zero_start"; PyStr "zero_integral"].
Lemma centerings_ok cv : In cv centerings -> exists ce, prep_cent cv = Ok ce /\ (cv = PyBool false -> ce = NoCent).
Proof. intros [<-|[<-|[<-|[<-|[]]]]]; eexists; (split; [reflexivity|]); [reflexivity|discriminate..]. Qed.

(** * C87  The PDP inherits the shape of the ICE curves *)
(** The general law: an inequality between values at the evaluation points (a list [ws] of weights and numbers of points) that all the ICE curves
    satisfy, the PDP satisfies, whatever the centering and the calls before; with centering the weights must add up to
    zero. *)
Theorem C87_shape : forall c X v rt ks f xs het cv vec, ice_curve c X f v -> wf_data X -> limits_ok c (dim X) ->
  (forall k r, (k < dim X)%nat -> In r (rows X) -> (p_mins c)@k <= r@k <= (p_maxs c)@k) -> rows X <> [] ->
  (f < dim X)%nat -> (p_mins c)@f < (p_maxs c)@f -> vec = true \/ xs <> [] -> In cv centerings ->
  exists out ys, snd (peval c rt (prun c rt (pfresh X) ks) f xs het cv false vec) = Ok out /\ mean_curve out = map Some ys /\ length ys = length xs /\
    forall ws b, (forall w k, In (w, k) ws -> (k < length xs)%nat) -> cv = PyBool false \/ sumq (map fst ws) = 0 ->
      (forall r, In r (rows X) -> b <= sumq (map (fun p => fst p * v r xs@(snd p)) ws)) ->
      b <= sumq (map (fun p => fst p * ys@(snd p)) ws).
Proof.
  intros c X v rt ks f xs het cv vec IC W LIM INL NX Hf LH V CV.
  destruct (curve_values c X f v IC) as (g & G & RO & EV). destruct (centerings_ok cv CV) as (ce & HC & NCE).
  destruct (peval_history c g G X RO W LIM INL rt ks f cv ce HC Hf LH) as (n & _ & _ & HE). specialize (HE xs het false vec V).
  match type of HE with context [centered _ ?sh _ _] => set (s := sh) in HE end.
  exists (summary rt false het (centered (pvalue (p_kind c) (dt X) g G f) s (rows X) xs)), (map (fun t => mean (map (fun r => v r t - s r) (rows X))) xs).
  split; [exact HE|]. split; [|split; [apply map_length|]].
  - assert (E : row_means (centered (pvalue (p_kind c) (dt X) g G f) s (rows X) xs) = map Some (map (fun t => mean (map (fun r => v r t - s r) (rows X))) xs)).
    { unfold row_means, centered. rewrite !map_map. apply map_ext. intros t. rewrite np_mean_some by (intros E; apply map_eq_nil in E; contradiction). do 2 f_equal. apply map_ext. intros r. now rewrite EV. }
    unfold summary. destruct het; exact E.
  - intros ws b HI HW HB.
    rewrite (map_ext_in _ (fun p => fst p * mean (map (fun r => v r xs@(snd p) - s r) (rows X)))).
    2:{ intros [w k] Hk. f_equal. simpl. rewrite nth_map_in with (d := 0) by exact (HI w k Hk). reflexivity. }
    rewrite (mean_sum (fun p => fst p) (fun p r => v r xs@(snd p) - s r)) by exact NX.
    apply mean_ge; [intros E; apply map_eq_nil in E; contradiction|]. intros e He. apply in_map_iff in He as (r & <- & Hr).
    eapply Qcle_trans; [exact (HB r Hr)|]. match goal with |- ?a <= ?b => assert (EQ : a = b); [|rewrite EQ; apply Qcle_refl] end.
    transitivity (sumq (map (fun p => fst p * v r xs@(snd p)) ws) - s r * sumq (map fst ws)).
    + destruct HW as [HW|HW]; [subst cv|rewrite HW; ring]. assert (Z0 : s r = 0) by (unfold s; rewrite (NCE eq_refl); reflexivity). rewrite Z0. ring.
    + clear. induction ws as [|p K IH]; [simpl; ring|]. cbn [map]. rewrite !sumq_cons, <- IH. ring.
Qed.
Print Assumptions C87_shape.

(** Its instances. Every ICE curve is non-decreasing (flat, convex, of slope at most [M], between [a] and [b]): so is the
    PDP; with centering, the range is that of the differences. *)
Definition curve_is (c : pconfig) (X : data) (rt : Qc -> Qc) (ks : list pcall) (f : nat) (xs : list Qc) (het : bool) (cv : pyval) (vec : bool) (ys : list Qc) : Prop :=
  exists out, snd (peval c rt (prun c rt (pfresh X) ks) f xs het cv false vec) = Ok out /\ mean_curve out = map Some ys.
Theorem C87_laws : forall c X v rt ks f xs het cv vec, ice_curve c X f v -> wf_data X -> limits_ok c (dim X) ->
  (forall k r, (k < dim X)%nat -> In r (rows X) -> (p_mins c)@k <= r@k <= (p_maxs c)@k) -> rows X <> [] ->
  (f < dim X)%nat -> (p_mins c)@f < (p_maxs c)@f -> vec = true \/ xs <> [] -> In cv centerings ->
  exists ys, curve_is c X rt ks f xs het cv vec ys /\ length ys = length xs /\
  ((forall r a b, In r (rows X) -> a <= b -> v r a <= v r b) ->
     forall i j, (i < length xs)%nat -> (j < length xs)%nat -> xs@i <= xs@j -> ys@i <= ys@j) /\
  ((forall r a b, In r (rows X) -> v r a = v r b) -> forall i j, (i < length xs)%nat -> (j < length xs)%nat -> ys@i = ys@j) /\
  (forall M, (forall r a b, In r (rows X) -> a <= b -> Qcabs (v r b - v r a) <= M * (b - a)) ->
     forall i j, (i < length xs)%nat -> (j < length xs)%nat -> xs@i <= xs@j -> Qcabs (ys@j - ys@i) <= M * (xs@j - xs@i)) /\
  ((forall r a b d, In r (rows X) -> a <= b -> b <= d -> (d - a) * v r b <= (d - b) * v r a + (b - a) * v r d) ->
     forall i j k, (i < length xs)%nat -> (j < length xs)%nat -> (k < length xs)%nat -> xs@i <= xs@j -> xs@j <= xs@k ->
     (xs@k - xs@i) * ys@j <= (xs@k - xs@j) * ys@i + (xs@j - xs@i) * ys@k) /\
  (forall a b, cv = PyBool false -> (forall r t, In r (rows X) -> a <= v r t <= b) -> forall i, (i < length xs)%nat -> a <= ys@i <= b).
Proof.
  intros c X v rt ks f xs het cv vec IC W LIM INL NX Hf LH V CV.
  destruct (C87_shape c X v rt ks f xs het cv vec IC W LIM INL NX Hf LH V CV) as (out & ys & HO & HM & HL & LAW).
  assert (DIFF : forall i j b, (i < length xs)%nat -> (j < length xs)%nat -> (forall r, In r (rows X) -> b <= v r xs@j - v r xs@i) -> b <= ys@j - ys@i).
  { intros i j b Hi Hj HB. assert (L := LAW [(1, j); (- (1), i)] b). cbn [map fst snd] in L. rewrite !sumq_cons in L. change (sumq []) with 0 in L.
    replace (ys@j - ys@i) with (1 * ys@j + (- (1) * ys@i + 0)) by ring. apply L.
    - intros w k [E|[E|[]]]; injection E as _ <-; assumption.
    - right. ring.
    - intros r Hr. rewrite !sumq_cons. change (sumq []) with 0. replace (1 * v r xs@j + (- (1) * v r xs@i + 0)) with (v r xs@j - v r xs@i) by ring. now apply HB. }
  exists ys. split; [exists out; split; assumption|]. split; [exact HL|]. split; [|split; [|split; [|split]]].
  - intros MO i j Hi Hj LE. assert (D := DIFF i j 0 Hi Hj ltac:(intros r Hr; specialize (MO r _ _ Hr LE); qlra)). qlra.
  - intros FL i j Hi Hj. assert (D := DIFF i j 0 Hi Hj ltac:(intros r Hr; rewrite (FL r xs@j xs@i Hr); qlra)). assert (D' := DIFF j i 0 Hj Hi ltac:(intros r Hr; rewrite (FL r xs@j xs@i Hr); qlra)).
    apply Qcle_antisym; qlra.
  - intros M SL i j Hi Hj LE.
    assert (D : - (M * (xs@j - xs@i)) <= ys@j - ys@i). { apply DIFF; try assumption. intros r Hr. specialize (SL r _ _ Hr LE). apply Qcabs_iff in SL. apply SL. }
    assert (D' : - (M * (xs@j - xs@i)) <= ys@i - ys@j). { apply DIFF; try assumption. intros r Hr. specialize (SL r _ _ Hr LE). apply Qcabs_iff in SL. destruct SL. qlra. }
    apply Qcabs_iff. split; [exact D|qlra].
  - intros CX i j k Hi Hj Hk L1 L2. assert (L := LAW [(xs@k - xs@j, i); (xs@j - xs@i, k); (- (xs@k - xs@i), j)] 0). cbn [map fst snd] in L. rewrite !sumq_cons in L. change (sumq []) with 0 in L.
    assert (D : 0 <= (xs@k - xs@j) * ys@i + ((xs@j - xs@i) * ys@k + (- (xs@k - xs@i) * ys@j + 0))).
    { apply L.
      - intros w n [E|[E|[E|[]]]]; injection E as _ <-; assumption.
      - right. ring.
      - intros r Hr. rewrite !sumq_cons. change (sumq []) with 0. specialize (CX r _ _ _ Hr L1 L2).
        set (A := (xs@k - xs@i) * v r xs@j) in *. replace (- (xs@k - xs@i) * v r xs@j) with (- A) by (unfold A; ring). qlra. }
    set (A := (xs@k - xs@i) * ys@j) in *. replace (- (xs@k - xs@i) * ys@j) with (- A) in D by (unfold A; ring). qlra.
  - intros a b -> RG i Hi. split.
    + assert (L := LAW [(1, i)] a). cbn [map fst snd] in L. rewrite !sumq_cons in L. change (sumq []) with 0 in L. replace (ys@i) with (1 * ys@i + 0) by ring. apply L.
      * intros w n [E|[]]; injection E as _ <-; assumption.
      * now left.
      * intros r Hr. rewrite !sumq_cons. change (sumq []) with 0. destruct (RG r xs@i Hr). replace (1 * v r xs@i + 0) with (v r xs@i) by ring. assumption.
    + assert (L := LAW [(- (1), i)] (- b)). cbn [map fst snd] in L. rewrite !sumq_cons in L. change (sumq []) with 0 in L.
      assert (D : - b <= - (1) * ys@i + 0).
      { apply L.
        - intros w n [E|[]]; injection E as _ <-; assumption.
        - now left.
        - intros r Hr. rewrite !sumq_cons. change (sumq []) with 0. destruct (RG r xs@i Hr). replace (- (1) * v r xs@i + 0) with (- v r xs@i) by ring. qlra. }
      replace (- (1) * ys@i + 0) with (- ys@i) in D by ring. qlra.
Qed.
Print Assumptions C87_laws.
(** The laws apply: x0 * x0 + x1 is convex in x0, and the curve after a fit and an eval with another centering is not flat. *)
Definition ex87_c := mkPC KPDP (map (fun r => r@0 * r@0 + r@1)) (qs [-2; 0]) (qs [2; 5]).
Definition ex87_X := mkData Float64 2 [qs [-2; 5]; qs [0; 0]; qs [2; 1]].
Definition ex87_ks := [PFit [0%nat; 1%nat] (PyStr "zero_start") (PyInt 3) true; PEval 0 (qs [1]) true (PyBool true) false true].
Example C87_instance : ice_curve ex87_c ex87_X 0 (fun r t => (with_feature r 0 t)@0 * (with_feature r 0 t)@0 + (with_feature r 0 t)@1) /\ wf_data ex87_X /\ limits_ok ex87_c (dim ex87_X) /\
  (forall k r, (k < dim ex87_X)%nat -> In r (rows ex87_X) -> (p_mins ex87_c)@k <= r@k <= (p_maxs ex87_c)@k) /\ (p_mins ex87_c)@0 < (p_maxs ex87_c)@0 /\
  (forall r t, In r (rows ex87_X) -> (with_feature r 0 t)@0 * (with_feature r 0 t)@0 + (with_feature r 0 t)@1 = t * t + r@1) /\
  (forall e a b d : Qc, a <= b -> b <= d -> (d - a) * (b * b + e) <= (d - b) * (a * a + e) + (b - a) * (d * d + e)) /\
  exists out, snd (peval ex87_c (fun v => v) (prun ex87_c (fun v => v) (pfresh ex87_X) ex87_ks) 0 (qs [-1; 0; 1]) true (PyStr "zero_start") false true) = Ok out /\
    map (option_map this) (mean_curve out) = map Some [-3; -4; -3]%Q.
Proof.
  split; [split; [reflexivity|]; exists (fun r => r@0 * r@0 + r@1); split; [reflexivity|cbn; reflexivity]|].
  split; [intros r [<-|[<-|[<-|[]]]]; reflexivity|]. split; [split; reflexivity|].
  split. { intros k r Hk Hr. destruct k as [|[|k]]; [| |simpl in Hk; lia]; destruct Hr as [<-|[<-|[<-|[]]]]; split; discriminate. }
  split; [reflexivity|]. split; [intros r t [<-|[<-|[<-|[]]]]; reflexivity|]. split.
  - intros e a b d H1 H2. assert (P : 0 <= (b - a) * (d - b) * (d - a)) by (repeat apply Qcmult_le_0; qlra).
    replace ((d - b) * (a * a + e) + (b - a) * (d * d + e)) with ((d - a) * (b * b + e) + (b - a) * (d - b) * (d - a)) by ring. qlra.
  - eexists. split; [vm_compute; reflexivity|vm_compute; reflexivity].
Qed.
