(** What a successful fit of one feature produces, and that every history keeps it (C19, C21, C22, C53). *)
From Verif Require Import Base Numpy Spec NumpyFacts Utils UtilsProofs FillProofs AccProofs LocalProofs ParamsProofs
  Helpers Integrate HelpersProofs Binning BinProofs GreedyProofs DPProofs LimitsProofs GlobalALE ALEState ALEHist.
Open Scope Qc_scope.
Open Scope list_scope.

Lemma ale_params_digitizable xs es l p : compute_ale_params xs es l = Ok p -> digitizable l /\ length es = length xs.
Proof.
  unfold compute_ale_params. cbv zeta. intros H. apply bind_ok in H as ([be ppb] & HB & _).
  unfold compute_bin_effect in HB. apply bind_ok in HB as (idx & HI & HB). cbv zeta in HB.
  apply bind_ok in HB as (ag & HA & _).
  assert (LI : length idx = length xs /\ digitizable l).
  { unfold bin_indices in HI. destruct l as [|a l]; [discriminate|]. apply bind_ok in HI as (ind & HD & HI). inversion HI; subst.
    rewrite map_length. unfold digitize in HD. destruct (mono_incr (add_last (a :: l) EPS)) eqn:M1.
    - inversion HD. rewrite map_length. split; [reflexivity|]. now left.
    - destruct (mono_decr (add_last (a :: l) EPS)) eqn:M2; [|discriminate]. inversion HD. rewrite map_length. split; [reflexivity|]. now right. }
  destruct LI as (LI & D). split; [exact D|].
  unfold bincount_w in HA. destruct (Nat.eqb_spec (length idx) (length (map (@Some Qc) es))) as [E|E]; [|discriminate].
  rewrite map_length in E. congruence.
Qed.

Section Obj.
Variable c : config.

(** the feature values used by a fit *)
Definition fit_xs (f : nat) : list Qc := col (rows (kept c (lo_of c f) (hi_of c f) f)) f.

Lemma fit_xs_in_range f x : In x (fit_xs f) -> lo_of c f <= x <= hi_of c f.
Proof.
  unfold fit_xs, kept. cbn [rows]. intros H. apply col_in in H as (r & Hr & <-). apply filter_In in Hr as (_ & Hr).
  unfold in_range in Hr. apply andb_prop in Hr as (A & B). apply Qcleb_le in A, B. auto.
Qed.
Lemma kept_effects_length lo hi f E e : kept_effects c lo hi f E = Ok e -> length e = length (rows (kept c lo hi f)).
Proof.
  unfold kept_effects. destruct (Nat.eqb_spec (length E) (length (rows (c_data c)))) as [L|]; [|discriminate].
  intros H; injection H as <-. rewrite map_length. unfold kept. cbn [rows].
  revert E L. induction (rows (c_data c)) as [|r rs IH]; intros E L; [reflexivity|]. destruct E as [|e E]; [discriminate|]. simpl.
  destruct (in_range lo hi f r); simpl; [f_equal|]; apply IH; simpl in L; lia.
Qed.
Lemma kept_effects_in lo hi f E e r : kept_effects c lo hi f E = Ok e -> In r e -> In r E.
Proof.
  unfold kept_effects. destruct (Nat.eqb (length E) (length (rows (c_data c)))); [|discriminate].
  intros H; injection H as <-. intros Hr. apply in_map_iff in Hr as ([a b] & <- & Hr). apply filter_In in Hr as (Hr & _).
  apply in_combine_r in Hr. exact Hr.
Qed.

(** A usable fit: increasing limits that cover all the feature values used. *)
Definition usable (xs es l : list Qc) : Prop :=
  length es = length xs /\ (2 <= length l)%nat /\ increasing l /\ forall x, In x xs -> covered l x.

Lemma rhale_fit_ok E f m p : bins_pos m -> lo_of c f < hi_of c f -> rhale_fit_feature c E f m = Ok p ->
  exists e l, kept_effects c (lo_of c f) (hi_of c f) f E = Ok e /\ compute_ale_params (fit_xs f) (col e f) l = Ok p /\
    usable (fit_xs f) (col e f) l /\ find_limits_b (mkB (fit_xs f) (col e f) (lo_of c f) (hi_of c f)) m = Ok (LArr l).
Proof.
  intros BP LH H. unfold rhale_fit_feature in H. apply bind_ok in H as (? & HC & H). apply bind_ok in H as (lo & Hlo & H). apply bind_ok in H as (hi & Hhi & H).
  apply (getn_inv _ _ _ 0) in Hlo as [L1 <-]. apply (getn_inv _ _ _ 0) in Hhi as [L2 <-].
  cbv zeta in H. fold (lo_of c f) (hi_of c f) in H. apply bind_ok in H as (e & He & H). apply bind_ok in H as (r & Hr & H).
  destruct r as [|l]; [discriminate|]. exists e, l. split; [exact He|].
  pose proof (ale_params_digitizable _ _ _ _ H) as (D & LE).
  assert (GC : getcol (kept c (lo_of c f) (hi_of c f) f) f = Ok (fit_xs f)).
  { unfold getcol in *. change (dim (kept c (lo_of c f) (hi_of c f) f)) with (dim (c_data c)). destruct (Nat.ltb f (dim (c_data c))); [reflexivity|discriminate]. }
  assert (MB : make_binner (kept c (lo_of c f) (hi_of c f) f) (Some e) f (Some (c_mins c, c_maxs c)) = Ok (mkB (fit_xs f) (col e f) (lo_of c f) (hi_of c f))).
  { unfold make_binner. rewrite (getn_ok _ _ 0) by exact L1. unfold bind at 2. rewrite (getn_ok _ _ 0) by exact L2. unfold bind at 1 2. rewrite GC. reflexivity. }
  assert (F : find_limits_b (mkB (fit_xs f) (col e f) (lo_of c f) (hi_of c f)) m = Ok (LArr l)).
  { unfold find_limits in Hr. destruct m; [apply bind_ok in Hr as (u & _ & Hr)| | |]; rewrite MB in Hr; exact Hr. }
  split; [exact H|]. split; [|exact F].
  destruct (find_limits_shape (mkB (fit_xs f) (col e f) (lo_of c f) (hi_of c f)) m l BP LH (fun x => fit_xs_in_range f x) (or_intror LE) F D) as (A & B & C & _).
  split; [exact LE|]. split; [exact A|]. split; assumption.
Qed.

Lemma covered_add_last l x : (2 <= length l)%nat -> covered l x -> covered (add_last l EPS) x.
Proof.
  intros Hl (A & B). pose proof EPS_pos. unfold covered. rewrite add_last_length, !add_last_nth by lia.
  rewrite Nat.eqb_refl. destruct (Nat.eqb_spec 0 (length l - 1)); [lia|]. split; [exact A|qlra].
Qed.

(** the method actually run by ALE._fit_feature *)
Definition ale_method (m : method) : option method :=
  match m with
  | MStr s => if String.eqb s "fixed" then Some (MFixed 20 (Some 0%nat) 15) else None
  | MFixed _ _ _ => Some m
  | _ => None
  end.

Lemma ale_fit_ok f m p : bins_pos m -> lo_of c f < hi_of c f -> ale_fit_feature c f m = Ok p ->
  exists n mp cl l es, ale_method m = Some (MFixed n mp cl) /\ (1 <= n)%nat /\
    fixed_find (mkB (fit_xs f) [] (lo_of c f) (hi_of c f)) n mp cl = Ok (LArr l) /\
    usable (fit_xs f) es l /\
    snd (compute_local_effects (kept c (lo_of c f) (hi_of c f) f) (c_model c) l f) = Ok es /\
    usable (fit_xs f) es (add_last l EPS) /\
    compute_ale_params (fit_xs f) es (add_last l EPS) = Ok p.
Proof.
  intros BP LH H. unfold ale_fit_feature in H. apply bind_ok in H as (? & HC & H). apply bind_ok in H as (lo & Hlo & H). apply bind_ok in H as (hi & Hhi & H).
  apply (getn_inv _ _ _ 0) in Hlo as [L1 <-]. apply (getn_inv _ _ _ 0) in Hhi as [L2 <-].
  cbv zeta in H. fold (lo_of c f) (hi_of c f) in H. apply bind_ok in H as (m' & Hm & H). apply bind_ok in H as (r & Hr & H).
  destruct r as [|l]; [discriminate|].
  destruct (compute_local_effects (kept c (lo_of c f) (hi_of c f) f) (c_model c) l f) as [l' effs] eqn:CL.
  apply bind_ok in H as (es & Hes & H). subst effs.
  assert (Q : l' = add_last l EPS /\ digitizable l).
  { unfold compute_local_effects in CL. destruct (c0 <- getcol _ f ;; _) as [c0|e]; [|discriminate]. cbv zeta in CL. injection CL as E1 E2. split; [congruence|].
    apply bind_ok in E2 as (ind & HD & _). unfold digitize in HD. unfold digitizable.
    destruct (mono_incr (add_last l EPS)); [now left|]. destruct (mono_decr (add_last l EPS)); [now right|discriminate]. }
  destruct Q as (-> & D).
  pose proof (ale_params_digitizable _ _ _ _ H) as (_ & LE).
  assert (MM : exists n mp cl, ale_method m = Some (MFixed n mp cl) /\ m' = MFixed n mp cl /\ (1 <= n)%nat).
  { unfold ale_method. destruct m as [s|n mp cl| |]; try discriminate.
    - destruct (String.eqb s "fixed"); [|discriminate]. inversion Hm; subst. repeat eexists. lia.
    - inversion Hm; subst. exists n, mp, cl. auto. }
  destruct MM as (n & mp & cl & MM & -> & Hn). exists n, mp, cl, l, es. split; [exact MM|]. split; [exact Hn|].
  assert (GC : getcol (kept c (lo_of c f) (hi_of c f) f) f = Ok (fit_xs f)).
  { unfold getcol in *. change (dim (kept c (lo_of c f) (hi_of c f) f)) with (dim (c_data c)). destruct (Nat.ltb f (dim (c_data c))); [reflexivity|discriminate]. }
  assert (MB : make_binner (kept c (lo_of c f) (hi_of c f) f) None f (Some (c_mins c, c_maxs c)) = Ok (mkB (fit_xs f) [] (lo_of c f) (hi_of c f))).
  { unfold make_binner. rewrite (getn_ok _ _ 0) by exact L1. unfold bind at 2. rewrite (getn_ok _ _ 0) by exact L2. unfold bind at 1 2. rewrite GC. reflexivity. }
  assert (F : fixed_find (mkB (fit_xs f) [] (lo_of c f) (hi_of c f)) n mp cl = Ok (LArr l)).
  { unfold find_limits in Hr. rewrite MB in Hr. exact Hr. }
  split; [exact F|].
  destruct (find_limits_shape (mkB (fit_xs f) [] (lo_of c f) (hi_of c f)) (MFixed n mp cl) l Hn LH (fun x => fit_xs_in_range f x) (or_introl I) F D) as (A & B & C & _).
  split; [split; [exact LE|split; [exact A|split; [exact B|exact C]]]|]. split; [rewrite CL; reflexivity|]. split; [|exact H].
  split; [exact LE|]. rewrite add_last_length. split; [exact A|]. split.
  - apply add_last_increasing; [|exact B]. pose proof EPS_pos. qlra.
  - intros x0 Hx. apply covered_add_last; [exact A|]. now apply C.
Qed.

(** Every successful fit: increasing covering limits. *)
Lemma fit_feature_usable st f m st' p : bins_pos m -> lo_of c f < hi_of c f -> fit_feature c st f m = (st', Ok p) ->
  exists es l, usable (fit_xs f) es l /\ compute_ale_params (fit_xs f) es l = Ok p.
Proof.
  intros BP LH H. unfold fit_feature in H. destruct (c_kind c) as [|jac].
  - injection H as _ H. destruct (ale_fit_ok f m p BP LH H) as (n & mp & cl & l & es & _ & _ & _ & _ & _ & U & P). eauto.
  - destruct (match st_eff st with Some e => Ok e | None => compile c jac end) as [E|]; [|discriminate]. injection H as _ H.
    destruct (rhale_fit_ok E f m p BP LH H) as (e & l & _ & P & U & _). eauto.
Qed.

(** *** What holds of every successful fit holds of every entry after every history *)
Section Hist.
Variable E0 : option Mat.
Variable M : method -> Prop.
Variable P : nat -> ale_params -> Prop.
Hypothesis Mdef : M (default_method c).
Hypothesis HP : forall f m p, M m -> pfit c E0 f m = Ok p -> P f p.

Definition pinv (st : state) : Prop := eff_ok c E0 st /\ forall f p nc, st_fe st f = Some (p, nc) -> P f p.
Definition methods_ok (k : call) : Prop := match k with CallFit _ m _ => M m | CallEval _ _ _ _ => True end.

Lemma pinv_fresh : pinv (fresh E0).
Proof. split; [apply (hinv_fresh c E0 (default_method c))|]. discriminate. Qed.
Lemma fit_one_pinv st f m ce : M m -> pinv st -> pinv (fst (fit_one c st f m ce)).
Proof.
  intros Mm (HE & HF). destruct (fit_feature_pure c E0 st f m HE) as (EP & HE1).
  pose proof (fit_feature_fields c st f m) as (F1 & F2 & F3). unfold fit_one.
  destruct (fit_feature c st f m) as [st1 r] eqn:F. cbn [fst snd] in *.
  destruct r as [p|e]; [|split; [exact HE1|intros k p nc; cbn [fst]; rewrite F1; apply HF]].
  assert (G : forall nc, pinv (set_fe st1 f (p, nc))).
  { intros nc. split; [exact HE1|]. intros k p' nc'. cbn [st_fe set_fe]. unfold upd. destruct (Nat.eqb_spec k f) as [->|]; [|rewrite F1; apply HF].
    intros Q. inversion Q; subst. apply (HP f m); auto. }
  assert (G2 : forall nc ce, pinv (set_fitted (set_fe (set_fe st1 f (p, None)) f (p, nc)) f ce)).
  { intros nc ce'. split; [exact HE1|]. intros k p' nc'. cbn [st_fe set_fe set_fitted]. unfold upd. destruct (Nat.eqb_spec k f) as [->|]; [|rewrite F1; apply HF].
    intros Q. inversion Q; subst. apply (HP f m); auto. }
  destruct ce; [apply G2| |]; (destruct (compute_norm_const c p f _); [apply G2|apply G]).
Qed.
Lemma fit_loop_pinv fs : forall st m ce, M m -> pinv st -> pinv (fst (fit_loop c st fs m ce)).
Proof.
  induction fs as [|f fs IH]; intros st m ce Mm H; [exact H|]. simpl. pose proof (fit_one_pinv st f m ce Mm H) as H1.
  destruct (fit_one c st f m ce) as [st' [u|e]]; cbn [fst] in *; [now apply IH|exact H1].
Qed.
Lemma fit_pinv st fs m cv : M m -> pinv st -> pinv (fst (fit c st fs m cv)).
Proof. intros Mm H. unfold fit. destruct (method_allowed c m); [|exact H]. destruct (prep_cent cv); [now apply fit_loop_pinv|exact H]. Qed.
Lemma eval_pinv rt st f xs het cv : pinv st -> pinv (fst (eval c rt st f xs het cv)).
Proof.
  intros H. unfold eval. destruct (prep_cent cv) as [ce|]; [|exact H]. destruct (refit c st f ce) as [[|]|]; try exact H.
  pose proof (fit_pinv st [f] (default_method c) cv Mdef H) as H1. destruct (fit c st [f] (default_method c) cv) as [st' [u|e]]; exact H1.
Qed.
Lemma run_pinv rt ks : forall st, Forall methods_ok ks -> pinv st -> pinv (run c rt st ks).
Proof.
  induction ks as [|k ks IH]; intros st F H; [exact H|]. simpl. inversion F; subst. apply IH; [assumption|].
  destruct k; simpl in *; [now apply fit_pinv|now apply eval_pinv].
Qed.
End Hist.
End Obj.
