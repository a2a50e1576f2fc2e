(** C125: In float64, columns the model does not read and the search does not condition on, and the position of the columns, change no subregion.
    Nothing is assumed of the numbers: NaN, infinities and overflow are included. *)
From Coq Require Import Reals.
From Flocq Require Import Core.
From Flocq Require Import IEEE754.BinarySingleNaN.
From Verif Require Import Base Numpy Utils FloatModel FloatMean FloatVar FloatDer FloatPDP FloatAdapt FloatRegion FloatRegionPDP FloatRegionALE FloatOpp FloatOppALE FloatOppAll FloatAsk FloatRegionPDPProofs FloatTree Prop_FloatAsk Prop_FloatGreedy Prop_FloatRegion Prop_FloatRegionPDP Prop_FloatRegionALE2 Prop_FloatRegionALE3.
Open Scope nat_scope.

(** Row by row, the columns [read] of one dataset are the columns [pos] of the other ([same_columns], C123), and the effects of the instance
    agree on the feature of interest f; nothing is said of the other columns of either. *)
Definition same_rows (read : list nat) (pos : nat -> nat) (f : nat) : list row64 -> list row64 -> Prop :=
  Forall2 (fun r r' => same_columns read pos (fst r) (fst r') /\ nth (pos f) (snd r') fnan = nth f (snd r) fnan).
(** [read] holds the feature of interest and the features conditioned on, each in its own column of the other dataset *)
Definition covers (read : list nat) (pos : nat -> nat) (f : nat) (g : regions64) : Prop :=
  In f read /\ (forall c, In c (g64_foc g) -> In c read) /\ (forall i j, In i read -> In j read -> pos i = pos j -> i = j).
(** The same exception, or the same splits (position, populations, heterogeneities, bit for bit), each on the moved column. *)
Definition same_tree (pos : nat -> nat) : res (list split64) -> res (list split64) -> Prop := alike (Forall2 (moved_split pos)).

Lemma carried_rows read pos f x x' : same_rows read pos f x x' -> Forall2 (carried f (pos f) (same_columns read pos)) x x'.
Proof. apply forall2_impl. intros r r' [A B]. split; [exact A|now symmetry]. Qed.
Lemma search_cols read pos f g h rows : covers read pos f g -> same_rows read pos f (g64_rows g) rows ->
  (forall x x', Forall2 (carried f (pos f) (same_columns read pos)) x x' -> h x' = g64_heter g x) -> same_tree pos (subregions64 g) (subregions64 (with_data g h rows pos)).
Proof.
  intros (F & S & I) H HH. apply (subregions_r g h rows pos (carried f (pos f) (same_columns read pos))); [|exact HH|now apply carried_rows].
  intros c r r' C [Q _]. unfold feat64. now apply (Q c (S c C)).
Qed.
(** RegionalPDP and RegionalDerPDP *)
Theorem C125_pdp read pos c g m' rows : (forall x, g64_heter g x = pdp_heter64 c x) -> covers read pos (h64_feature c) g -> same_rows read pos (h64_feature c) (g64_rows g) rows ->
  same_target (h64_feature c) (pos (h64_feature c)) (same_columns read pos) (h64_target c) m' ->
  same_tree pos (subregions64 g) (subregions64 (with_data g (pdp_heter64 (pdp_moved c m' (pos (h64_feature c)))) rows pos)).
Proof.
  intros G CV H T. apply (search_cols read pos (h64_feature c)); auto. intros x x' X. rewrite G. apply (pdp_heter_r c _ (same_columns read pos)); [|exact T|exact X]. apply C123_columns; [apply (proj1 CV)|apply (proj2 (proj2 CV))].
Qed.
(** RegionalALE *)
Theorem C125_ale read pos c g model model' nof m cat rows : (forall x, g64_heter g x = ale_heter64 c x) -> r64_fit c = region_ale64 (r64_feature c) model nof m cat ->
  covers read pos (r64_feature c) g -> same_rows read pos (r64_feature c) (g64_rows g) rows -> same_answers (same_columns read pos) model model' ->
  same_tree pos (subregions64 g) (subregions64 (with_data g (ale_heter64 (ale_moved c (pos (r64_feature c)) (region_ale64 (pos (r64_feature c)) model' nof m cat))) rows pos)).
Proof.
  intros G F CV H A. assert (C : carries (r64_feature c) (pos (r64_feature c)) (same_columns read pos)) by (apply C123_columns; [apply (proj1 CV)|apply (proj2 (proj2 CV))]).
  apply (search_cols read pos (r64_feature c)); auto. intros x x' X. rewrite G. apply (ale_heter_r c _ (same_columns read pos)); [exact C|exact X|]. intros lo hi. rewrite F. unfold region_ale64. symmetry.
  apply (ale_rel _ _ _ C); [|exact A]. exact (carried_fst _ _ _ _ _ X).
Qed.
(** RegionalRHALE *)
Theorem C125_rhale read pos c g var b rows : (forall x, g64_heter g x = ale_heter64 c x) -> r64_fit c = region_rhale64 (r64_feature c) var b ->
  covers read pos (r64_feature c) g -> same_rows read pos (r64_feature c) (g64_rows g) rows ->
  same_tree pos (subregions64 g) (subregions64 (with_data g (ale_heter64 (ale_moved c (pos (r64_feature c)) (region_rhale64 (pos (r64_feature c)) var b))) rows pos)).
Proof.
  intros G F CV H. assert (C : carries (r64_feature c) (pos (r64_feature c)) (same_columns read pos)) by (apply C123_columns; [apply (proj1 CV)|apply (proj2 (proj2 CV))]).
  apply (search_cols read pos (r64_feature c)); auto. intros x x' X. rewrite G. apply (ale_heter_r c _ (same_columns read pos)); [exact C|exact X|]. intros lo hi. rewrite F. unfold region_rhale64. symmetry.
  apply (rhale_rel _ _ _ C); [exact (carried_fst _ _ _ _ _ X)|exact (carried_snd _ _ _ _ _ X)].
Qed.
(** When only unread columns change or are added (no column moves), "the same tree" is equality. *)
Theorem C125_unread r r' : same_tree (fun c => c) r r' <-> r' = r.
Proof.
  split.
  - intros H. destruct r as [l|e], r' as [l'|e']; cbn in H; try contradiction; [|congruence]. f_equal. symmetry. apply eq2. eapply forall2_impl; [|exact H].
    intros [] [] (A1 & A2 & A3 & A4 & A5 & A6 & A7). cbn in *. congruence.
  - intros ->. apply alike_refl. intros l. apply refl2. intros s. repeat split.
Qed.
(** The instances of each subregion are the same: cutting related rows gives related parts. *)
Theorem C125_parts read pos f g xs xs' c p t : covers read pos f g -> In c (g64_foc g) -> Forall2 (same_rows read pos f) xs xs' ->
  Forall2 (same_rows read pos f) (split_all64 xs c p t) (split_all64 xs' (pos c) p t).
Proof.
  intros (F & S & I) C H. unfold split_all64, split_dataset64. induction H as [|x x' xs xs' X H IH]; [constructor|]. cbn [flat_map]. apply app2'; [|exact IH].
  constructor; [|constructor; [|constructor]]; (apply filter2; [|exact X]); intros r r' [Q _]; unfold feat64; rewrite (proj2 (proj2 (Q c (S c C)))); reflexivity.
Qed.

(** ** hypotheses met: eight rows whose columns move from (0, 1) to (2, 0), next to a column of infinities and NaN; one split is found on both *)
Definition pos20 (j : nat) : nat := match j with 0 => 2 | _ => 0 end.
Definition far_row (r : row64) : row64 := ([nth 1 (fst r) fnan; if Beqb (nth 1 (fst r) fnan) (fofn 3) then fnan else B754_infinity true; nth 0 (fst r) fnan], [fnan; fnan; nth 0 (snd r) fnan]).
Definition far_flip (r : list b64) : b64 := flip_model [nth 2 r fnan; nth 0 r fnan].
Lemma far_columns l : length l = 2 -> same_columns [0; 1] pos20 l (fst (far_row (l, []))).
Proof. intros L j [<-|[<-|[]]]; cbn; repeat split; lia || auto. Qed.
Example far_covers : covers [0; 1] pos20 0 flip /\ same_rows [0; 1] pos20 0 (g64_rows flip) (map far_row (g64_rows flip)) /\
  same_target 0 2 (same_columns [0; 1] pos20) (Outputs flip_model) (Outputs far_flip).
Proof.
  split; [|split].
  - split; [now left|]. split; [intros c [<-|[]]; right; now left|]. intros i j [<-|[<-|[]]] [<-|[<-|[]]]; cbn; intros; congruence.
  - cbn [flip g64_rows]. rewrite map_map. apply map_same2. intros i. split; [|reflexivity]. intros j [<-|[<-|[]]]; cbn [pos20 flip_row far_row fst length nth]; repeat split; lia || auto.
  - intros r r' H. unfold far_flip, flip_model. cbn [nth]. destruct (H 0 ltac:(now left)) as (_ & _ & A). destruct (H 1 ltac:(right; now left)) as (_ & _ & B). cbn [pos20] in A, B. now rewrite A, B.
Qed.
Example far_tree : show (subregions64 flip) = [(1%nat, true, [4; 4]%nat)] /\ show (subregions64 (with_data flip (pdp_heter64 (pdp_moved flip_heter (Outputs far_flip) 2)) (map far_row (g64_rows flip)) pos20)) = [(0%nat, true, [4; 4]%nat)].
Proof. split; vm_compute; reflexivity. Qed.
Definition far_prod (r : list b64) : b64 := prod_model [nth 2 r fnan; nth 0 r fnan].
Example far_ale : covers [0; 1] pos20 0 prod /\ same_rows [0; 1] pos20 0 (g64_rows prod) (map far_row (g64_rows prod)) /\ same_answers (same_columns [0; 1] pos20) (map prod_model) (map far_prod).
Proof.
  split; [|split].
  - split; [now left|]. split; [intros c [<-|[]]; right; now left|]. intros i j [<-|[<-|[]]] [<-|[<-|[]]]; cbn; intros; congruence.
  - cbn [prod g64_rows]. unfold prod_rows. rewrite map_map. apply map_same2. intros i. split; [|reflexivity]. intros j [<-|[<-|[]]]; cbn [pos20 far_row fst length nth]; repeat split; lia || auto.
  - intros Y Y' H. apply eq2. eapply map2; [|exact H]. intros r r' Q. unfold far_prod, prod_model. cbn [nth]. destruct (Q 0 ltac:(now left)) as (_ & _ & A). destruct (Q 1 ltac:(right; now left)) as (_ & _ & B). cbn [pos20] in A, B. now rewrite A, B.
Qed.
Example far_ale_tree : map fst (show (subregions64 prod)) = map (fun q => (1, snd q)) (map fst (show (subregions64 (with_data prod (ale_heter64 (ale_moved prod_heter 2 (region_ale64 2 (map far_prod) 4 0 2))) (map far_row (g64_rows prod)) pos20)))) /\ length (show (subregions64 prod)) = 1.
Proof. split; vm_compute; reflexivity. Qed.
Example far_rhale : covers [0; 1] pos20 0 mix /\ same_rows [0; 1] pos20 0 (g64_rows mix) (map far_row (g64_rows mix)) /\
  map snd (show (subregions64 (with_data mix (ale_heter64 (ale_moved mix_heter 2 (region_rhale64 2 var_seq mix_bins))) (map far_row (g64_rows mix)) pos20))) = [[16; 16]%nat].
Proof.
  split; [|split].
  - split; [now left|]. split; [intros c [<-|[]]; right; now left|]. intros i j [<-|[<-|[]]] [<-|[<-|[]]]; cbn; intros; congruence.
  - cbn [mix g64_rows]. unfold mix_rows. rewrite map_map. apply map_same2. intros i. split; [|reflexivity]. intros j [<-|[<-|[]]]; cbn [pos20 mix_row far_row fst length nth]; repeat split; lia || auto.
  - vm_compute. reflexivity.
Qed.

Print Assumptions C125_pdp.
Print Assumptions C125_ale.
Print Assumptions C125_rhale.
Print Assumptions C125_unread.
Print Assumptions C125_parts.
