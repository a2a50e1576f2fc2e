(** Property C81: ties between candidate splits. *)
From Verif Require Import Base Numpy Spec NumpyFacts Utils PartSpec Partition PartProofs PartSearch PartTree PartFacts PartNodes Prop_Partition.
Open Scope Qc_scope.
Open Scope list_scope.

Lemma heterogeneities_unique h X E cs ps a b : heterogeneities h X E cs ps a -> heterogeneities h X E cs ps b -> a = b.
Proof.
  unfold heterogeneities. intros H. revert b. induction H as [|p v ps a Hp H IH]; intros b Hb; inversion Hb; subst; [reflexivity|].
  f_equal; [congruence|]. now apply IH.
Qed.

(** * C81  Among equally good splits the first conditioning feature wins, then the smallest position *)
(** Level [l] of a search as in C38: the split [s] belongs to the entry number [i] of the list of conditioning features; a
    candidate of an earlier entry, or a smaller position of the same entry, has a strictly smaller weighted drop. *)
Theorem C81_first : forall g r ss l s, wf_regions g -> search_all_splits g = Ok (Some (r, ss)) -> nth_error ss l = Some s ->
  let X := rows (g_data g) in let E := g_effect g in let h := g_heter g in
  let cs := map cond_of (firstn l ss) in
  exists before i, heterogeneities h X E cs (paths l) before /\
    nth_error (combine (g_foc g) (g_foc_types g)) i = Some (s_feature s, s_type s) /\
    forall i' f t p hs, nth_error (combine (g_foc g) (g_foc_types g)) i' = Some (f, t) -> candidate X (g_nof_splits g) f t p ->
      (i' < i)%nat \/ (i' = i /\ p < s_position s) ->
      let other := cs ++ [(f, t, p)] in heterogeneities h X E other (paths (S l)) hs ->
      weighted (map (fun q => length (region X other q)) (paths (S l))) (drops before hs) < s_drop s.
Proof.
  intros g r ss l s W SR HN X E h cs. destruct (C38_best g r ss l s W SR HN) as (before & HB & (_ & HS & _ & HD) & _).
  destruct (search_inv g r ss W SR) as (_ & H0 & _ & _ & _ & HL & _).
  pose proof HN as HN'. apply nth_error_Some_nth with (d := s) in HN' as [Hl Hs].
  pose proof (HL l Hl s) as LO. rewrite Hs in LO. destruct LO as [_ _ _ _ _ L6 _ _ L9].
  exists before, (s_i s). split; [exact HB|]. split; [exact L6|]. intros i' f t p hs HI HC OR other HH.
  destruct (L9 f t p (nth_error_In _ _ HI) HC) as (hs' & K1 & _ & K3).
  assert (EE : hs' = hs) by exact (heterogeneities_unique _ _ _ _ _ _ _ K1 HH). subst hs'.
  assert (EB : before = match l with O => [r_heter r] | S l' => s_heter (nth l' ss s) end).
  { apply (heterogeneities_unique _ _ _ _ _ _ _ HB). destruct l as [|l'].
    - unfold heterogeneities. simpl. constructor; [|constructor]. rewrite region_nil. fold X in H0. destruct W as [_ W2].
      unfold h, E. rewrite <- H0. f_equal. destruct (g_effect g) as [e|]; [|reflexivity]. simpl. f_equal. apply region_effects_nil. exact W2.
    - destruct (HL l' ltac:(lia) s) as [_ K2 _ _ _ _ _ _ _]. eapply Forall2_impl_in; [|exact K2]. intros q v Hq Hv. cbv beta in *.
      apply paths_len in Hq. unfold cs. rewrite firstn_map_cond, region_firstn by lia. fold X in Hv. unfold h, E. rewrite <- Hv.
      destruct (g_effect g) as [e|]; [|reflexivity]. cbn [option_map]. now rewrite region_effects_firstn by lia. }
  rewrite EB. apply K3. exists i'. split; [exact HI|exact OR].
Qed.
Print Assumptions C81_first.

(** Two equal columns: the one listed first is split, at the smaller of the two equally good positions. *)
Definition ex81_X : Mat := [qs [0; 0; 0]; qs [1; 0; 0]; qs [4; 1; 1]; qs [5; 1; 1]].
Definition ex81 (foc : list nat) : regions := mkRegions 0 (fun x _ => match x with [] | [_] => Ok BIG_M | _ => Ok (variance (map (fun r => r@1) x)) end)
  (mkData Float64 3 ex81_X) None [Cont; Cont; Cont] ["a"; "b"; "c"]%string 3 foc [Cont; Cont] 2 2 1 (Q2Qc (1 # 10)) 0 false.
Definition chosen81 (foc : list nat) := rmap (option_map (fun p : root * list split => map (fun s => (s_feature s, this (s_position s), show (s_candidates s))) (snd p))) (search_all_splits (ex81 foc)).
Example C81_instance : (forall foc, length foc = 2%nat -> wf_regions (ex81 foc)) /\
  chosen81 [1; 2]%nat = Ok (Some [(1%nat, (1 # 4)%Q, [1 # 4; 3 # 4]%Q)]) /\
  chosen81 [2; 1]%nat = Ok (Some [(2%nat, (1 # 4)%Q, [1 # 4; 3 # 4]%Q)]).
Proof. split; [intros foc H; split; [simpl; lia|exact I]|]. split; vm_compute; reflexivity. Qed.
