(** C123: In float64, columns the model does not read, the position of the columns and the batch of positions change no bit.
    Nothing is assumed of the numbers: NaN, infinities and overflow are included. *)
From Coq Require Import Reals.
From Flocq Require Import Core.
From Flocq Require Import IEEE754.BinarySingleNaN.
From Verif Require Import Base Numpy Utils FloatModel FloatMean FloatVar FloatDer FloatPDP FloatAdapt FloatRegion FloatRegionPDP FloatRegionALE FloatOpp FloatOppALE FloatOppAll FloatAsk Prop_FloatGreedy Prop_FloatOpp.
Open Scope nat_scope.

(** The columns [read] of one row are the columns [pos] of the other; nothing is said about the other columns. *)
Definition same_columns (read : list nat) (pos : nat -> nat) (r r' : list b64) : Prop :=
  forall j, In j read -> (j < length r)%nat /\ (pos j < length r')%nat /\ nth (pos j) r' fnan = nth j r fnan.
Theorem C123_columns read pos f : In f read -> (forall i j, In i read -> In j read -> pos i = pos j -> i = j) ->
  carries f (pos f) (same_columns read pos).
Proof.
  intros F I r r' H. split; [symmetry; now apply H|]. intros v j J. unfold list_set. rewrite !list_updn_length. destruct (H j J) as (L & L' & E). split; [exact L|]. split; [exact L'|].
  destruct (H f F) as (LF & LF' & _). rewrite !list_updn_nth by assumption.
  destruct (Nat.eqb_spec (pos j) (pos f)) as [P|P]; destruct (Nat.eqb_spec j f) as [Q|Q]; [reflexivity|exfalso; apply Q; now apply I|exfalso; apply P; now rewrite Q|exact E].
Qed.

(** ** fit: the same bins, effects and variances, or the same exception *)
Theorem C123_limits f f' R X X' : carries f f' R -> Forall2 R X X' -> axis_limits64 X f = axis_limits64 X' f'.
Proof. intros C. now apply limits_rel. Qed.
Theorem C123_ale f f' R X X' model model' lo hi nof m cat : carries f f' R -> Forall2 R X X' -> same_answers R model model' ->
  ale_fit_feature64 X model lo hi f nof m cat = ale_fit_feature64 X' model' lo hi f' nof m cat.
Proof. intros C. now apply ale_rel. Qed.
Theorem C123_rhale f f' R var X X' E E' lo hi b : carries f f' R -> Forall2 R X X' -> Forall2 (fun e e' => nth f e fnan = nth f' e' fnan) E E' ->
  rhale_fit_feature64 var X E lo hi f b = rhale_fit_feature64 var X' E' lo hi f' b.
Proof. intros C. now apply rhale_rel. Qed.

(** ** PDP and DerPDP: the same curve and heterogeneity *)
Definition with_columns (p : pdp64) (m : target64) (X : list (list b64)) (f : nat) : pdp64 :=
  mk_pdp64 m X f (p64_lo p) (p64_hi p) (FloatPDP.p64_points p) (p64_axis0 p) (p64_axis1 p).
Theorem C123_pdp f' R p X' m' c xs : carries (p64_feature p) f' R -> Forall2 R (p64_rows p) X' -> same_target (p64_feature p) f' R (p64_target p) m' ->
  pdp_eval64 (with_columns p m' X' f') c xs = pdp_eval64 p c xs.
Proof. intros C HX HT. symmetry. now apply (pdp_rel (p64_feature p) f' R C p (with_columns p m' X' f')). Qed.

(** ** a batch of positions is answered position by position *)
Theorem C123_ale_batch mean c p lo hi : pointwise (ale_eval64 mean c p lo hi).
Proof. apply ale_pointwise. Qed.
Theorem C123_pdp_batch p c : pointwise (pdp_eval64 p c).
Proof. apply pdp_pointwise. Qed.

(** ** hypotheses met: the model reads the columns 0 and 2; the new dataset holds them in the columns 3 and 1, next to others *)
Definition pos02 (j : nat) : nat := match j with 0 => 3 | _ => 1 end.
Definition old_row (i : nat) : list b64 := [fofn i; fnan; fofn (Nat.modulo i 3)].
Definition new_row (i : nat) : list b64 := [B754_infinity true; fofn (Nat.modulo i 3); fofn (i * i); fofn i].
Definition times02 (Y : list (list b64)) : list b64 := map (fun r => fmul (nth 0 r fnan) (nth 2 r fnan)) Y.
Definition times31 (Y : list (list b64)) : list b64 := map (fun r => fmul (nth 3 r fnan) (nth 1 r fnan)) Y.
Example moved : carries 0 3 (same_columns [0; 2] pos02) /\ Forall2 (same_columns [0; 2] pos02) (map old_row (seq 0 8)) (map new_row (seq 0 8)) /\
  same_answers (same_columns [0; 2] pos02) times02 times31.
Proof.
  split; [|split].
  - apply (C123_columns [0; 2] pos02 0); [now left|]. intros i j [<-|[<-|[]]] [<-|[<-|[]]]; cbn; intros; congruence.
  - apply map_same2. intros i j [<-|[<-|[]]]; cbn [pos02 old_row new_row length nth]; repeat split; lia || auto.
  - intros Y Y' H. unfold times02, times31. apply eq2. eapply map2; [|exact H]. intros r r' Q.
    destruct (Q 0 ltac:(now left)) as (_ & _ & A). destruct (Q 2 ltac:(right; now left)) as (_ & _ & B). cbn [pos02] in A, B. now rewrite A, B.
Qed.
Example moved_fits : match p <- ale_fit_feature64 (map old_row (seq 0 8)) times02 (fofn 0) (fofn 7) 0 2 0 3 ;; ale_eval64 (fun n => At 0) ZeroStart p (fofn 0) (fofn 7) [fofn 3; fofn 7] with
  | Ok ([a; b], [u; v]) => Bltb fzero a && Bltb a b && Bltb fzero u && Bltb u v
  | _ => false end = true.
Proof. vm_compute. reflexivity. Qed.

Print Assumptions C123_columns.
Print Assumptions C123_limits.
Print Assumptions C123_ale.
Print Assumptions C123_rhale.
Print Assumptions C123_pdp.
Print Assumptions C123_ale_batch.
Print Assumptions C123_pdp_batch.
