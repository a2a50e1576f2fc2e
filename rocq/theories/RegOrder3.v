(** RegOrder3: the global objects that a regional object builds on a node, on two orders of the instances. *)
From Verif Require Import Base Numpy Spec NumpyFacts Utils UtilsProofs LocalProofs Helpers HelpersProofs Binning GlobalALE ALEState ALEHist GlobalPDP PDPProofs GlobalShap PartSpec Partition PartProofs PartSearch OrderProofs Prop_Order Regional HeterProofs RegOrder PDPOrder.
Open Scope Qc_scope.
Open Scope list_scope.

(** Two ALE/RHALE objects that compute the same. *)
Record twins (c : config) (E : option Mat) (c' : config) (E' : option Mat) : Prop := {
  tw_kind : default_method c = default_method c' /\ (forall m, method_allowed c m = method_allowed c' m);
  tw_dim : dim (c_data c) = dim (c_data c'); tw_mins : c_mins c = c_mins c'; tw_maxs : c_maxs c = c_maxs c'; tw_fits : forall f m, ALEHist.pfit c E f m = ALEHist.pfit c' E' f m }.
Lemma limits_same d n (Z Z' : Mat) : Permutation Z Z' -> axis_limits_from_data (mkData d n Z) = axis_limits_from_data (mkData d n Z').
Proof.
  intros P. unfold axis_limits_from_data. cbn [dim rows].
  assert (Q : forall (h : list Qc -> res Qc), (forall a b, Permutation a b -> h a = h b) -> forall fs, mapM (fun i => h (col Z i)) fs = mapM (fun i => h (col Z' i)) fs).
  { intros h Hh fs. apply mapM_ext. intros a. apply Hh. now apply col_permutation. }
  now rewrite (Q np_min np_min_permutation), (Q np_max np_max_permutation).
Qed.
(** What a class uses of the two arguments: the effects of the pairs, or a row-wise model. *)
Definition usable (b : bool) (k : kind) (model : Mat -> list Qc) : Prop :=
  match k with KALE => b = false /\ exists g, model = map g | KRHALE j => b = true \/ (j = None /\ exists g, model = map g) end.
Lemma construct_twins choice b k model d n nof al Q Q' : usable b k model -> Permutation Q Q' -> keeps_all nof (length Q) ->
  (exists e, construct choice k (mkData d n (map fst Q)) model nof al (oeff b Q) = Raise e /\ construct choice k (mkData d n (map fst Q')) model nof al (oeff b Q') = Raise e) \/
  (exists c c', construct choice k (mkData d n (map fst Q)) model nof al (oeff b Q) = Ok (c, fresh (oeff b Q)) /\ construct choice k (mkData d n (map fst Q')) model nof al (oeff b Q') = Ok (c', fresh (oeff b Q')) /\ twins c (oeff b Q) c' (oeff b Q')).
Proof.
  intros U P K. assert (LQ := Permutation_length P).
  assert (K' : keeps_all nof (length (map fst Q'))) by (rewrite map_length, <- LQ; exact K).
  assert (K0 : keeps_all nof (length (map fst Q))) by (rewrite map_length; exact K).
  assert (PR : Permutation (map fst Q) (map fst Q')) by now apply Permutation_map.
  unfold construct. cbn [rows dt dim]. destruct (prep_all choice nof _ K0) as [z1 ->], (prep_all choice nof _ K') as [z2 ->]. cbn [bind]. rewrite !select_rows_all. cbn [bind].
  assert (SE : forall V : pairs, match k, oeff b V with KRHALE _, Some e => rmap Some (select_rows e (seq 0 (length (map fst V)))) | _, _ => Ok None end = Ok (oeff b V)).
  { intros V. destruct k; [destruct U as (-> & _); reflexivity|]. unfold oeff. destruct b; [|reflexivity]. replace (length (map fst V)) with (length (map snd V)) by now rewrite !map_length. now rewrite select_rows_all. }
  rewrite !SE. cbn [bind]. rewrite <- (limits_same d n _ _ PR).
  destruct (match al with Some p => Ok p | None => axis_limits_from_data _ end) as [(mins & maxs)|e]; cbn [bind]; [right|left; eauto].
  change (mkSt (oeff b Q) (fun _ => None) (fun _ => None) (fun _ => false)) with (fresh (oeff b Q)). change (mkSt (oeff b Q') (fun _ => None) (fun _ => None) (fun _ => false)) with (fresh (oeff b Q')).
  eexists. eexists. split; [reflexivity|]. split; [reflexivity|]. constructor; try reflexivity; [split; reflexivity|]. intros f m.
  unfold ALEHist.pfit, fit_feature. cbn [c_kind]. destruct k as [|j].
  - destruct U as (-> & g & ->). cbn [snd]. now apply (ale_fit_permutation _ _ g).
  - destruct b.
    + cbn [snd fresh st_eff oeff]. apply rhale_fit_permutation; auto; cbn [c_data rows]; rewrite ?map_length; auto.
      rewrite !combine_two. rewrite (map_ext _ (fun q => q)), (map_ext (fun q => (fst q, snd q)) (fun q => q)) by (intros []; reflexivity). now rewrite !map_id.
    + destruct U as [U|(-> & g & ->)]; [discriminate|]. cbn [oeff fresh st_eff]. unfold compile. cbn [c_model c_data].
      destruct (numerical_rows g d n EPS) as [(e & H)|(G & H)]; rewrite !H; cbn [snd]; [reflexivity|].
      apply rhale_fit_permutation; auto; cbn [c_data rows]; rewrite ?map_length; auto.
      assert (I : forall X : list (list Qc), combine X (map G X) = map (fun r => (r, G r)) X) by (induction X as [|r X IH]; simpl; congruence).
      rewrite !I. now apply Permutation_map.
Qed.

Section Twins.
Variables (gc gc' : config) (E E' : option Mat) (TW : twins gc E gc' E').
Lemma twins_fit fs m cv : snd (fit gc (fresh E) fs m cv) = snd (fit gc' (fresh E') fs m cv) /\ agree gc gc' E E' (fst (fit gc (fresh E) fs m cv)) (fst (fit gc' (fresh E') fs m cv)).
Proof. destruct TW as [H1 H2 H3 H4 H5]. apply agree_fit; auto. apply agree_fresh. Qed.
Lemma twins_eval rt st st' f xs het cv : agree gc gc' E E' st st' -> snd (eval gc rt st f xs het cv) = snd (eval gc' rt st' f xs het cv).
Proof. intros A. destruct TW as [H1 H2 H3 H4 H5]. now apply (agree_eval gc gc' E E'). Qed.
Lemma twins_fresh rt f xs het cv : snd (eval gc rt (fresh E) f xs het cv) = snd (eval gc' rt (fresh E') f xs het cv).
Proof. apply twins_eval, agree_fresh. Qed.
End Twins.

(** ** ALE and RHALE *)
Section Ale.
Context (x : externals) (c : rconfig) (b : bool).
Lemma heter_ale_same k f m mp cv Q Q' : usable b k (q_model c) -> Permutation Q Q' -> heter_ale x c k f m mp cv (map fst Q) (oeff b Q) = heter_ale x c k f m mp cv (map fst Q') (oeff b Q').
Proof.
  intros U P. unfold heter_ale, as_data. rewrite !map_length, <- (Permutation_length P). destruct (Nat.ltb (length Q) mp); [reflexivity|].
  destruct (construct_twins (x_choice x) b k (q_model c) (dt (q_data c)) (dim (q_data c)) (PyStr "all") None Q Q' U P (or_introl eq_refl)) as [(e & -> & ->)|(gc & gc' & -> & -> & TW)]; [reflexivity|]. cbn [bind].
  destruct (twins_fit gc gc' _ _ TW [f] m cv) as (R & A). destruct (fit gc (fresh (oeff b Q)) [f] m cv) as (s1 & r1), (fit gc' (fresh (oeff b Q')) [f] m cv) as (s2 & r2). cbn [fst snd] in R, A. subst r2.
  destruct r1 as [u|e]; [|reflexivity]. cbn [caught]. rewrite (limits_same _ _ (map fst Q) (map fst Q')) by now apply Permutation_map.
  destruct (axis_limits_from_data _) as [(mi & ma)|e]; [|reflexivity]. cbn [bind]. destruct (getn ma f) as [s|e]; [|reflexivity]. cbn [bind]. now rewrite (twins_eval gc gc' _ _ TW (x_rt x) s1 s2 f [s] true (PyBool false) A).
Qed.
Definition ale_class : Prop := match q_kind c with RALE => b = false /\ exists g, q_model c = map g | RRHALE _ => b = true | _ => False end.
Lemma ale_heter : ale_class -> forall f o h, heter_of x c f o = Ok h -> symmetric (fun _ => True) b h.
Proof.
  unfold ale_class, heter_of. intros AC f o h H. destruct (q_kind c) as [jac| | | |]; try contradiction; apply bind_ok in H as (m & _ & H); injection H as <-; intros Q Q' _ P; apply heter_ale_same; auto; simpl; auto.
Qed.
Lemma ale_eval : ale_class -> forall Q Q' f xs het cv, Permutation Q Q' -> fe_eval x c (map fst Q) (oeff b Q) f xs het cv = fe_eval x c (map fst Q') (oeff b Q') f xs het cv.
Proof.
  unfold ale_class, fe_eval, as_data. intros AC Q Q' f xs het cv P. destruct (q_kind c) as [jac| | | |] eqn:K; try contradiction.
  - subst b. destruct (construct_twins (x_choice x) true (KRHALE jac) (q_model c) (dt (q_data c)) (dim (q_data c)) (PyStr "all") None Q Q' (or_introl eq_refl) P (or_introl eq_refl)) as [(e & -> & ->)|(gc & gc' & -> & -> & TW)]; [reflexivity|]. cbn [bind].
    now rewrite (twins_fresh gc gc' _ _ TW).
  - destruct AC as (-> & AC). destruct (construct_twins (x_choice x) false KALE (q_model c) (dt (q_data c)) (dim (q_data c)) (PyStr "all") None Q Q' (conj eq_refl AC) P (or_introl eq_refl)) as [(e & HE & HE')|(gc & gc' & HE & HE' & TW)];
    cbn [oeff] in HE, HE'; rewrite HE, HE'; [reflexivity|]. cbn [bind oeff]. cbn [oeff] in TW. now rewrite (twins_fresh gc gc' _ _ TW).
Qed.
Lemma ale_drawn : ale_class -> forall st st' Q Q' f xs het cv, qs_binning st f = qs_binning st' f -> (Z.of_nat (length Q) <= q_nof c)%Z -> Permutation Q Q' ->
  drawn_curve x c st f (map fst Q) (oeff b Q) xs het cv = drawn_curve x c st' f (map fst Q') (oeff b Q') xs het cv.
Proof.
  unfold ale_class, drawn_curve, as_data. intros AC st st' Q Q' f xs het cv B L P. set (jac := match q_kind c with RRHALE j => j | _ => None end).
  assert (U : usable b (KRHALE jac) (q_model c)) by (unfold usable, jac; destruct (q_kind c); try contradiction; [now left|right; split; [reflexivity|apply AC]]).
  assert (EQ : forall A (u v : A), match q_kind c with RRHALE _ | RALE => u | _ => v end = u) by (intros; destruct (q_kind c); try contradiction; reflexivity).
  rewrite !EQ. destruct (construct_twins (x_choice x) b (KRHALE jac) (q_model c) (dt (q_data c)) (dim (q_data c)) (PyInt (q_nof c)) None Q Q' U P ltac:(right; eauto)) as [(e & -> & ->)|(gc & gc' & -> & -> & TW)]; [reflexivity|]. cbn [bind].
  rewrite <- B. destruct (match qs_binning st f with None => _ | Some m => _ end) as [m|e]; [|reflexivity]. cbn [bind].
  destruct (twins_fit gc gc' _ _ TW [f] m cv) as (R & A). destruct (fit gc (fresh (oeff b Q)) [f] m cv) as (s1 & r1), (fit gc' (fresh (oeff b Q')) [f] m cv) as (s2 & r2). cbn [fst snd] in R, A. subst r2.
  destruct r1 as [u|e]; [|reflexivity]. cbn [bind]. now rewrite (twins_eval gc gc' _ _ TW (x_rt x) s1 s2 f xs het cv A).
Qed.
End Ale.

(** ** PDP and DerPDP *)
Section Pdp.
Context (x : externals) (c : rconfig) (g : list Qc -> Qc) (G : list Qc -> list Qc).
Definition pdp_class : Prop := q_model c = map g /\
  match q_kind c with RPDP | RDerPDP None => True | RDerPDP (Some j) => j = map G /\ (forall r, length r = dim (q_data c) -> length (G r) = dim (q_data c)) | _ => False end.
Definition row_ok (Q : pairs) : Prop := forall q, In q Q -> length (fst q) = dim (q_data c).
Lemma row_ok_good Q : row_ok Q -> goodrow (dim (q_data c)) (map fst Q).
Proof. intros H r Hr. apply in_map_iff in Hr as (q & <- & Hq). now apply H. Qed.
Lemma pconstruct_same choice k d n model nof al (Z Z' : Mat) : Permutation Z Z' -> keeps_all nof (length Z) ->
  (exists e, pconstruct choice k (mkData d n Z) model nof al = Raise e /\ pconstruct choice k (mkData d n Z') model nof al = Raise e) \/
  (exists mins maxs, pconstruct choice k (mkData d n Z) model nof al = Ok (mkPC k model mins maxs, pfresh (mkData d n Z)) /\ pconstruct choice k (mkData d n Z') model nof al = Ok (mkPC k model mins maxs, pfresh (mkData d n Z'))).
Proof.
  intros P K. assert (K' : keeps_all nof (length Z')) by now rewrite <- (Permutation_length P).
  unfold pconstruct. cbn [rows dt dim]. destruct (prep_all choice nof _ K) as [z1 ->], (prep_all choice nof _ K') as [z2 ->]. cbn [bind]. rewrite !select_rows_all. cbn [bind]. rewrite <- (limits_same d n Z Z' P).
  destruct (match al with Some p => Ok p | None => _ end) as [(mi & ma)|e]; [right; exists mi, ma; split; reflexivity|left; cbn [bind]; eauto].
Qed.
Lemma out_rel_sum {A} (k : pout -> A) o o' : (forall M, o <> OAll M) -> out_rel o o' -> o = o'.
Proof. intros H R. destruct o, o'; simpl in R; try contradiction; try exact R. now destruct (H yy). Qed.
Lemma peval_no_all pc rt st f xs het cv vec o : snd (peval pc rt st f xs het cv false vec) = Ok o -> forall M, o <> OAll M.
Proof.
  assert (F : forall s ce, peval_fitted pc rt s f xs het ce false vec = Ok o -> forall M, o <> OAll M).
  { intros s ce H M. unfold peval_fitted in H. apply bind_ok in H as (lo & _ & H). apply bind_ok in H as (hi & _ & H). apply bind_ok in H as (u & _ & H). apply bind_ok in H as (yy & _ & H). apply bind_ok in H as (y2 & _ & H).
    destruct het; injection H as <-; discriminate. }
  unfold peval. destruct (prep_cent cv) as [ce|e]; [|discriminate]. destruct (prefit st f ce) as [[|]|e]; [| |discriminate].
  - destruct (GlobalPDP.pfit pc st [f] cv default_pts vec) as (s & [u|e]); cbn [snd]; [apply F|discriminate].
  - cbn [snd]. apply F.
Qed.
Lemma peval_same pc d n rt st st' f xs het cv vec : row_object pc n g G -> prel d n st st' -> snd (peval pc rt st f xs het cv false vec) = snd (peval pc rt st' f xs het cv false vec).
Proof.
  intros RO H. destruct (peval_rel pc g G d n RO rt st st' f xs het cv false vec H) as (_ & R).
  destruct (snd (peval pc rt st f xs het cv false vec)) as [o|e] eqn:E, (snd (peval pc rt st' f xs het cv false vec)) as [o'|e']; simpl in R; try contradiction; [|now subst].
  f_equal. apply (out_rel_sum (fun u => u)); [|exact R]. exact (peval_no_all _ _ _ _ _ _ _ _ _ E).
Qed.
Definition pk (k : rkind) : pkind := match k with RDerPDP j => KDer j | _ => KPDP end.
Lemma class_object mins maxs : pdp_class -> row_object (mkPC (pk (q_kind c)) (q_model c) mins maxs) (dim (q_data c)) g G.
Proof. intros (M & K). split; [exact M|]. cbn [p_kind]. destruct (q_kind c) as [| | |[j|]|]; try contradiction; simpl; auto. Qed.
Lemma heter_pdp_same f mp cv nof pts vec Q Q' E E' : pdp_class -> row_ok Q -> keeps_all nof (length Q) -> Permutation Q Q' ->
  heter_pdp x c (pk (q_kind c)) f mp cv nof pts vec (map fst Q) E = heter_pdp x c (pk (q_kind c)) f mp cv nof pts vec (map fst Q') E'.
Proof.
  intros PC RK K P. unfold heter_pdp, as_data. rewrite !map_length, <- (Permutation_length P). destruct (Nat.ltb (length Q) mp); [reflexivity|].
  assert (PR : Permutation (map fst Q) (map fst Q')) by now apply Permutation_map.
  destruct (pconstruct_same (x_choice x) (pk (q_kind c)) (dt (q_data c)) (dim (q_data c)) (q_model c) nof (Some (q_mins c, q_maxs c)) _ _ PR ltac:(now rewrite map_length)) as [(e & -> & ->)|(mi & ma & -> & ->)]; [reflexivity|]. cbn [bind].
  pose proof (class_object mi ma PC) as RO. set (pc := mkPC (pk (q_kind c)) (q_model c) mi ma) in *.
  pose proof (prel_fresh (dt (q_data c)) (dim (q_data c)) _ _ (row_ok_good Q RK) PR) as H0.
  destruct (pfit_rel pc g G _ _ RO _ _ [f] cv pts vec H0) as (H1 & R1).
  destruct (GlobalPDP.pfit pc (pfresh (mkData (dt (q_data c)) (dim (q_data c)) (map fst Q))) [f] cv pts vec) as (s1 & r1), (GlobalPDP.pfit pc (pfresh (mkData (dt (q_data c)) (dim (q_data c)) (map fst Q'))) [f] cv pts vec) as (s2 & r2).
  cbn [fst snd] in *. apply rrel_eq in R1. subst r2. destruct r1 as [u|e]; [|reflexivity]. cbn [caught]. rewrite (limits_same _ _ (map fst Q) (map fst Q') PR).
  destruct (axis_limits_from_data _) as [(m1 & m2)|e]; [|reflexivity]. cbn [bind]. destruct (getn m1 f) as [lo|e]; [|reflexivity]. cbn [bind]. destruct (getn m2 f) as [hi|e]; [|reflexivity]. cbn [bind].
  now rewrite (peval_same pc _ _ (x_rt x) s1 s2 f (linspace lo hi 10) true (PyBool false) vec RO H1).
Qed.
Lemma pdp_heter : pdp_class -> forall N f o h, keeps_all (fo_nof o) N -> heter_of x c f o = Ok h -> symmetric (fun Q => row_ok Q /\ (length Q <= N)%nat) false h.
Proof.
  intros PC N f o h K H Q Q' (RK & L) P.
  assert (K' : keeps_all (fo_nof o) (length Q)) by (destruct K as [->|(z & -> & Hz)]; [now left|right; exists z; split; [reflexivity|lia]]).
  pose proof (fun pts vec => heter_pdp_same f (fo_minpts o) (fo_centering o) (fo_nof o) pts vec Q Q' (oeff false Q) (oeff false Q') PC RK K' P) as HS.
  destruct PC as (_ & PC). unfold heter_of in H. destruct (q_kind c) as [| | |j|]; try contradiction; injection H as <-; apply HS.
Qed.
Lemma pdp_eval : pdp_class -> forall Q Q' f xs het cv, row_ok Q -> (length Q <= 300)%nat -> Permutation Q Q' ->
  fe_eval x c (map fst Q) (oeff false Q) f xs het cv = fe_eval x c (map fst Q') (oeff false Q') f xs het cv.
Proof.
  intros PC Q Q' f xs het cv RK L P.
  assert (EQ : forall V W, fe_eval x c V W f xs het cv = '(gc, st) <- pconstruct (x_choice x) (pk (q_kind c)) (as_data c V) (q_model c) (PyInt 300) None ;; r <- snd (peval gc (x_rt x) st f xs het cv false true) ;; Ok (GPdp r)).
  { intros V W. destruct PC as (_ & PC). unfold fe_eval. destruct (q_kind c); try contradiction; reflexivity. }
  rewrite !EQ. unfold as_data. assert (PR : Permutation (map fst Q) (map fst Q')) by now apply Permutation_map.
  destruct (pconstruct_same (x_choice x) (pk (q_kind c)) (dt (q_data c)) (dim (q_data c)) (q_model c) (PyInt 300) None _ _ PR ltac:(right; exists 300%Z; rewrite map_length; split; [reflexivity|lia])) as [(e & -> & ->)|(mi & ma & -> & ->)]; [reflexivity|]. cbn [bind].
  pose proof (class_object mi ma PC) as RO. pose proof (prel_fresh (dt (q_data c)) (dim (q_data c)) _ _ (row_ok_good Q RK) PR) as H0.
  now rewrite (peval_same _ _ _ (x_rt x) _ _ f xs het cv true RO H0).
Qed.
Lemma pdp_drawn : pdp_class -> forall st st' Q Q' f xs het cv, row_ok Q -> (length Q <= 300)%nat -> Permutation Q Q' ->
  drawn_curve x c st f (map fst Q) (oeff false Q) xs het cv = drawn_curve x c st' f (map fst Q') (oeff false Q') xs het cv.
Proof.
  intros PC st st' Q Q' f xs het cv RK L P. pose proof (pdp_eval PC Q Q' f xs het cv RK L P) as E. destruct PC as (_ & PC). unfold drawn_curve. destruct (q_kind c); try contradiction; exact E.
Qed.
End Pdp.
