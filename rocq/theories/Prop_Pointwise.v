(** C94: eval is a curve. What eval returns for one point does not depend on which other points are asked for in the
    same call, nor on whether the heterogeneity is asked for too. [snd] of an evaluation is its result, [st] the state
    of the object after any history of calls. *)
From Verif Require Import Base Numpy Spec NumpyFacts Utils Helpers Integrate HelpersProofs Binning GlobalALE ALEState GlobalPDP PDPFacts PDPProofs GlobalShap ShapProofs Vis FeatHist Pointwise
  Prop_GlobalALE Prop_PDP Prop_Shap.
Open Scope Qc_scope.
Open Scope list_scope.

(** * C94  ALE and RHALE: no hypothesis on the model or the data *)
Theorem C94_ale : forall c E rt ks f xs het cv y h,
  let st := run c rt (fresh E) ks in
  snd (eval c rt st f xs het cv) = Ok (y, h) ->
  exists curve spread : Qc -> Qc, forall zs het',
    snd (eval c rt st f zs het' cv) = Ok (map curve zs, if het' then Some (map spread zs) else None).
Proof. intros c E rt ks f xs het cv y h st H. eapply eval_curve; [|exact H]. apply run_inv, inv_fresh. Qed.
Print Assumptions C94_ale.
Example C94_ale_instance :
  rmap (fun p => (show (fst p), option_map show (snd p))) (snd (eval ex22 (fun v => v) (fresh None) 0 (qs [1; 3]) true (PyBool true))) = Ok ([-1543 # 1452; 7169 # 1452]%Q, Some [9#8; 173#8]%Q) /\
  rmap (fun p => show (fst p)) (snd (eval ex22 (fun v => v) (fresh None) 0 (qs [3]) false (PyBool true))) = Ok [7169 # 1452]%Q.
Proof. split; vm_compute; reflexivity. Qed.

(** ShapDP: the explainer, the sorting and the spline are arbitrary. *)
Theorem C94_shap : forall c X ks f xs het cv y h,
  let st := srun c (sfresh X) ks in
  snd (seval c st f xs het cv) = Ok (y, h) ->
  exists curve spread : Qc -> Qc, forall zs het',
    snd (seval c st f zs het' cv) = Ok (map curve zs, if het' then Some (map spread zs) else None).
Proof. intros c X ks f xs het cv y h st H. eapply seval_curve; exact H. Qed.
Print Assumptions C94_shap.

(** PDP and d-PDP of a model that works row by row: also the vectorized and the loop version give the same curve
    and the same ICE values. The loop version does not accept an empty list of points. *)
Theorem C94_pdp : forall c g G X rt ks f xs het cv all vec o,
  row_object c (dim X) g G -> wf_data X -> vec = true \/ xs <> [] ->
  let st := prun c rt (pfresh X) ks in
  snd (peval c rt st f xs het cv all vec) = Ok o ->
  exists (ices : Qc -> list Qc), forall zs vec', vec' = true \/ zs <> [] ->
    let curve x := np_mean (ices x) in let spread x := option_map rt (np_var (ices x)) in
    snd (peval c rt st f zs false cv false vec') = Ok (OMean (map curve zs)) /\
    snd (peval c rt st f zs true cv false vec') = Ok (OMeanStd (map curve zs) (map spread zs)) /\
    forall het', snd (peval c rt st f zs het' cv true vec') = Ok (OAll (map ices zs)).
Proof.
  intros c g G X rt ks f xs het cv all vec o RO W V st H.
  assert (K : keeps_shape (dim X) st) by (apply prun_shape; split; [exact W|reflexivity]).
  destruct (peval_curve c g G rt (dim X) st f cv xs het all vec o RO K V H) as (R & HR). exists R. intros zs vec' V'. cbv zeta.
  assert (M : row_means (map R zs) = map (fun x => np_mean (R x)) zs) by apply map_map.
  assert (D : row_stds rt (map R zs) = map (fun x => option_map rt (np_var (R x))) zs) by apply map_map.
  split; [|split; [|intros het']]; rewrite (HR zs _ _ vec' V'); unfold summary; rewrite ?M, ?D; reflexivity.
Qed.
Print Assumptions C94_pdp.
Example C94_pdp_instance : row_object ex26 (dim ex26X) (fun r => r@0 * r@1) (fun r => r) /\ wf_data ex26X /\
  (exists o, snd (peval ex26 (fun v => v) (pfresh ex26X) 0 (qs [1; 2]) true (PyBool true) false true) = Ok o) /\
  (exists o, snd (peval ex26 (fun v => v) (pfresh ex26X) 0 (qs [2]) false (PyBool true) false false) = Ok o).
Proof.
  split; [split; [reflexivity|exact I]|]. split; [intros r [<-|[<-|[]]]; reflexivity|].
  split; (eexists; vm_compute; reflexivity).
Qed.
Example C94_shap_instance : exists y h, snd (seval (ex_obj [0; 0]%Z [4; 9]%Z) (sfresh ex_rows) 0 (qs [1; 2]) true (PyBool true)) = Ok (y, h).
Proof. eexists. eexists. vm_compute. reflexivity. Qed.
