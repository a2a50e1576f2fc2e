(** FloatBins: digitize, the bins and the numerical Jacobian in binary64. *)
From Coq Require Import Reals.
From Flocq Require Import Core.
From Flocq Require Import IEEE754.BinarySingleNaN.
From Verif Require Import Base Numpy FloatModel FloatFacts FloatGrid.
From Coq Require Import Lra.
Open Scope R_scope.

Definition fins (l : list b64) : Prop := forall x, In x l -> fin x.
(** weakly increasing *)
Definition sorted64 (l : list b64) : Prop := forall i, (S i < length l)%nat -> val (nth i l fnan) <= val (nth (S i) l fnan).

Lemma fins_nth l i : fins l -> (i < length l)%nat -> fin (nth i l fnan).
Proof. intros F H. apply F, nth_In, H. Qed.
Lemma fins_tl a l : fins (a :: l) -> fins l. Proof. intros F x H. apply F. now right. Qed.
Lemma sorted_tl a l : sorted64 (a :: l) -> sorted64 l. Proof. intros F i H. apply (F (S i)). cbn. lia. Qed.
Lemma sorted_le l i j : sorted64 l -> (i <= j)%nat -> (j < length l)%nat -> val (nth i l fnan) <= val (nth j l fnan).
Proof.
  intros So Hij. induction Hij as [|j Hij IH]; intros Hj; [lra|]. eapply Rle_trans; [apply IH; lia|]. apply So. exact Hj.
Qed.

Lemma mono_incr64_sorted l : fins l -> sorted64 l -> mono_incr64 l = true.
Proof.
  induction l as [|a l IH]; intros F So; [reflexivity|]. destruct l as [|b l]; [reflexivity|].
  unfold mono_incr64 in *. cbn [tl combine forallb fst snd]. rewrite andb_true_iff. split.
  - apply fle_val; [apply F; now left|apply F; right; now left|]. apply (So 0%nat). cbn. lia.
  - apply IH; [eapply fins_tl; eauto|eapply sorted_tl; eauto].
Qed.

Lemma digitize64_iff l x : fins l -> sorted64 l -> fin x ->
  forall i, (i < length l)%nat -> (i < digitize64_1 l x)%nat <-> val (nth i l fnan) <= val x.
Proof.
  induction l as [|a l IH]; intros F So Fx i Hi; [cbn in Hi; lia|].
  unfold digitize64_1, count in *. cbn [filter]. destruct (negb (Bltb x a)) eqn:E.
  - apply fnlt_val in E; [|exact Fx|apply F; now left]. destruct i as [|i]; cbn [length nth].
    + split; [intros _; exact E|lia].
    + rewrite <- (IH (fins_tl _ _ F) (sorted_tl _ _ So) Fx i) by (cbn in Hi; lia). lia.
  - assert (A : val x < val a).
    { apply Rnot_le_lt. intros H. apply (fnlt_val x a Fx) in H; [congruence|apply F; now left]. }
    assert (Z : filter (fun b => negb (Bltb x b)) l = []).
    { destruct (filter (fun b => negb (Bltb x b)) l) as [|c l'] eqn:Ef; [reflexivity|].
      assert (In c (filter (fun b => negb (Bltb x b)) l)) by (rewrite Ef; now left).
      apply filter_In in H as [H1 H2]. apply fnlt_val in H2; [|exact Fx|apply F; now right].
      apply In_nth with (d := fnan) in H1 as (k & K1 & K2).
      pose proof (sorted_le (a :: l) 0 (S k) So ltac:(lia) ltac:(cbn; lia)) as L. cbn [nth] in L. rewrite K2 in L. lra. }
    rewrite Z. cbn [length]. split; [lia|]. intros H.
    pose proof (sorted_le (a :: l) 0 i So ltac:(lia) Hi) as L. change (nth 0 (a :: l) fnan) with a in L. exfalso. lra.
Qed.
Lemma digitize64_le l x : (digitize64_1 l x <= length l)%nat.
Proof. unfold digitize64_1, count. apply filter_length_le. Qed.

(** the index of a value inside the limits *)
Lemma digitize64_inside l x : fins l -> sorted64 l -> fin x -> (2 <= length l)%nat ->
  val (nth 0 l fnan) <= val x < val (nth (length l - 1) l fnan) ->
  exists k, digitize64_1 l x = S k /\ (S k < length l)%nat /\ val (nth k l fnan) <= val x < val (nth (S k) l fnan).
Proof.
  intros F So Fx L [H1 H2].
  pose proof (digitize64_iff l x F So Fx) as I. pose proof (digitize64_le l x).
  assert (D0 : (0 < digitize64_1 l x)%nat) by (apply I; [lia|exact H1]).
  assert (D1 : ~ (length l - 1 < digitize64_1 l x)%nat) by (rewrite I by lia; lra).
  exists (digitize64_1 l x - 1)%nat. repeat split; try lia.
  - apply I; lia.
  - apply Rnot_le_lt. intros C. apply I in C; lia.
Qed.
Lemma digitize64_top l x : fins l -> sorted64 l -> fin x -> (1 <= length l)%nat ->
  val (nth (length l - 1) l fnan) <= val x -> digitize64_1 l x = length l.
Proof.
  intros F So Fx L H. pose proof (digitize64_iff l x F So Fx (length l - 1)%nat ltac:(lia)) as I. pose proof (digitize64_le l x).
  apply I in H. lia.
Qed.

(** ** min and max *)
Lemma fmin_val a b : fin a -> fin b -> fin (fmin a b) /\ val (fmin a b) <= val a /\ val (fmin a b) <= val b /\ (fmin a b = a \/ fmin a b = b).
Proof.
  intros Fa Fb. unfold fmin. destruct (is_nan a) eqn:Na; [destruct a; discriminate|]. destruct (is_nan b) eqn:Nb; [destruct b; discriminate|].
  destruct (Bleb a b) eqn:E.
  - apply fle_val in E; auto. repeat split; auto; lra.
  - assert (~ val a <= val b) by (rewrite <- fle_val by assumption; congruence). repeat split; auto; lra.
Qed.
Lemma fmax_val a b : fin a -> fin b -> fin (fmax a b) /\ val a <= val (fmax a b) /\ val b <= val (fmax a b) /\ (fmax a b = a \/ fmax a b = b).
Proof.
  intros Fa Fb. unfold fmax. destruct (is_nan a) eqn:Na; [destruct a; discriminate|]. destruct (is_nan b) eqn:Nb; [destruct b; discriminate|].
  destruct (Bleb b a) eqn:E.
  - apply fle_val in E; auto. repeat split; auto; lra.
  - assert (~ val b <= val a) by (rewrite <- fle_val by assumption; congruence). repeat split; auto; lra.
Qed.
Lemma fold_fmin l : fins l -> forall a, fin a ->
  fin (fold_left fmin l a) /\ val (fold_left fmin l a) <= val a /\ (forall x, In x l -> val (fold_left fmin l a) <= val x)
  /\ (fold_left fmin l a = a \/ In (fold_left fmin l a) l).
Proof.
  induction l as [|b l IH]; intros F a Fa; cbn [fold_left].
  - repeat split; auto; [lra|now intros].
  - destruct (fmin_val a b Fa (F b ltac:(now left))) as (A1 & A2 & A3 & A4).
    destruct (IH (fins_tl _ _ F) (fmin a b) A1) as (B1 & B2 & B3 & B4). repeat split; [exact B1|lra| |].
    + intros x [<-|H]; [lra|now apply B3].
    + destruct B4 as [B4|B4]; [|now right; right]. rewrite B4. destruct A4 as [->| ->]; [now left|right; now left].
Qed.
Lemma fold_fmax l : fins l -> forall a, fin a ->
  fin (fold_left fmax l a) /\ val a <= val (fold_left fmax l a) /\ (forall x, In x l -> val x <= val (fold_left fmax l a))
  /\ (fold_left fmax l a = a \/ In (fold_left fmax l a) l).
Proof.
  induction l as [|b l IH]; intros F a Fa; cbn [fold_left].
  - repeat split; auto; [lra|now intros].
  - destruct (fmax_val a b Fa (F b ltac:(now left))) as (A1 & A2 & A3 & A4).
    destruct (IH (fins_tl _ _ F) (fmax a b) A1) as (B1 & B2 & B3 & B4). repeat split; [exact B1|lra| |].
    + intros x [<-|H]; [lra|now apply B3].
    + destruct B4 as [B4|B4]; [|now right; right]. rewrite B4. destruct A4 as [->| ->]; [now left|right; now left].
Qed.
Lemma np_min64_ok l : fins l -> l <> [] -> exists m, np_min64 l = Ok m /\ fin m /\ In m l /\ forall x, In x l -> val m <= val x.
Proof.
  intros F N. destruct l as [|a l]; [congruence|]. cbn [np_min64]. eexists. split; [reflexivity|].
  destruct (fold_fmin l (fins_tl _ _ F) a (F a ltac:(now left))) as (B1 & B2 & B3 & B4). repeat split; [exact B1| |].
  - destruct B4 as [->|B4]; [now left|now right].
  - intros x [<-|H]; [exact B2|now apply B3].
Qed.
Lemma np_max64_ok l : fins l -> l <> [] -> exists m, np_max64 l = Ok m /\ fin m /\ In m l /\ forall x, In x l -> val x <= val m.
Proof.
  intros F N. destruct l as [|a l]; [congruence|]. cbn [np_max64]. eexists. split; [reflexivity|].
  destruct (fold_fmax l (fins_tl _ _ F) a (F a ltac:(now left))) as (B1 & B2 & B3 & B4). repeat split; [exact B1| |].
  - destruct B4 as [->|B4]; [now left|now right].
  - intros x [<-|H]; [exact B2|now apply B3].
Qed.

(** ** widening the last limit *)
Lemma widen64_length l : length (widen64 l) = length l.
Proof. apply list_updn_length. Qed.
Lemma widen64_nth l i : (1 <= length l)%nat ->
  nth i (widen64 l) fnan = if Nat.eqb i (length l - 1) then fadd (nth i l fnan) EPS64 else nth i l fnan.
Proof. intros H. unfold widen64. rewrite list_updn_nth by lia. destruct (Nat.eqb_spec i (length l - 1)); [subst|]; reflexivity. Qed.

Definition last64 (l : list b64) : b64 := nth (length l - 1) l fnan.
Definition first64 (l : list b64) : b64 := nth 0 l fnan.

Lemma list_ext {A} (d : A) l l' : length l = length l' -> (forall i, (i < length l)%nat -> nth i l d = nth i l' d) -> l = l'.
Proof. intros. apply nth_ext with (d := d) (d' := d); auto. Qed.

Lemma widen64_noop l : (1 <= length l)%nat -> fin (last64 l) -> (bpow radix2 27 <= val (last64 l) \/ val (last64 l) < - bpow radix2 27) -> widen64 l = l.
Proof.
  intros L F H. apply (list_ext fnan); [apply widen64_length|]. intros i _. rewrite widen64_nth by exact L.
  destruct (Nat.eqb_spec i (length l - 1)) as [->|]; [|reflexivity]. now apply widen_big.
Qed.

Lemma widen64_sorted l : (1 <= length l)%nat -> fins l -> sorted64 l -> - bpow radix2 27 <= val (last64 l) < bpow radix2 27 ->
  fins (widen64 l) /\ sorted64 (widen64 l) /\ val (last64 l) < val (last64 (widen64 l)).
Proof.
  intros L F So H. destruct (widen_small (last64 l) (fins_nth l (length l - 1) F ltac:(lia)) H) as [W1 W2].
  assert (EL : last64 (widen64 l) = fadd (last64 l) EPS64).
  { unfold last64 at 1. rewrite widen64_length, widen64_nth, Nat.eqb_refl by exact L. reflexivity. }
  repeat split.
  - intros x Hx. apply In_nth with (d := fnan) in Hx as (i & Hi & <-). rewrite widen64_length in Hi. rewrite widen64_nth by exact L.
    destruct (Nat.eqb_spec i (length l - 1)) as [->|]; [exact W2|now apply fins_nth].
  - intros i Hi. rewrite widen64_length in Hi. rewrite !widen64_nth by exact L.
    destruct (Nat.eqb_spec i (length l - 1)); [lia|]. pose proof (So i Hi) as S1.
    destruct (Nat.eqb_spec (S i) (length l - 1)) as [E|]; [|exact S1]. rewrite E in *. unfold last64 in W1. lra.
  - rewrite EL. exact W1.
Qed.

(** ** compute_local_effects *)
Lemma getn_nth (l : list b64) i : (i < length l)%nat -> getn l i = Ok (nth i l fnan).
Proof. intros H. unfold getn. now rewrite (nth_error_nth' _ fnan H). Qed.
Lemma getz_last (l : list b64) : (1 <= length l)%nat -> getz l (-1) = Ok (last64 l).
Proof.
  intros H. unfold getz. replace (-1 <? 0)%Z with true by reflexivity. cbv zeta iota.
  destruct (Z.ltb_spec (-1 + Z.of_nat (length l)) 0) as [C|C]; [lia|].
  replace (Z.to_nat (-1 + Z.of_nat (length l))) with (length l - 1)%nat by lia.
  now rewrite (nth_error_nth' _ fnan) by lia.
Qed.

Lemma guards_ok X l f : fins (col64 X f) -> X <> [] -> fins l -> (2 <= length l)%nat ->
  (forall r, In r X -> val (first64 l) <= val (nth f r fnan) <= val (last64 l)) ->
  (l0 <- getn l 0 ;; mn <- np_min64 (col64 X f) ;; passert (Bleb l0 mn) ;;
   lk <- getz l (-1) ;; mx <- np_max64 (col64 X f) ;; passert (Bleb mx lk) ;; Ok tt) = Ok tt.
Proof.
  intros FX NX F L C. assert (NC : col64 X f <> []) by (destruct X; [congruence|discriminate]).
  destruct (np_min64_ok _ FX NC) as (mn & E1 & Fm & I1 & _). destruct (np_max64_ok _ FX NC) as (mx & E2 & Fx & I2 & _).
  rewrite getn_nth by lia. cbn [bind]. rewrite E1. cbn [bind].
  apply in_map_iff in I1 as (r1 & R1 & I1). apply in_map_iff in I2 as (r2 & R2 & I2).
  replace (Bleb _ mn) with true. 2:{ symmetry. apply fle_val; [apply fins_nth; [exact F|lia]|exact Fm|]. rewrite <- R1. now apply C. }
  cbn [assert_ bind]. rewrite getz_last by lia. cbn [bind]. rewrite E2. cbn [bind].
  replace (Bleb mx _) with true. 2:{ symmetry. apply fle_val; [exact Fx|apply fins_nth; [exact F|lia]|]. rewrite <- R2. now apply C. }
  reflexivity.
Qed.

Lemma take_nth (l : list b64) ind : (forall i, In i ind -> (i < length l)%nat) -> take l ind = Ok (map (fun i => nth i l fnan) ind).
Proof. intros H. unfold take. apply mapM_ok. intros i Hi. now apply getn_nth, H. Qed.
Lemma take_raise (l : list b64) ind i : In i ind -> (length l <= i)%nat -> take l ind = Raise IndexError.
Proof.
  intros Hi Hl. apply mapM_raise with (a := i); [exact Hi| |].
  - unfold getn. now rewrite (proj2 (nth_error_None _ _) Hl).
  - intros j _. unfold getn. destruct (nth_error l j); auto.
Qed.

(** at 2^27 and above the last limit does not move, and the instance that sits on it has no bin *)
Lemma local_effects_big X model l f r0 : fins (col64 X f) -> fins l -> sorted64 l -> (2 <= length l)%nat ->
  (forall r, In r X -> val (first64 l) <= val (nth f r fnan) <= val (last64 l)) ->
  In r0 X -> val (nth f r0 fnan) = val (last64 l) ->
  (bpow radix2 27 <= val (last64 l) \/ val (last64 l) < - bpow radix2 27) ->
  compute_local_effects64 X model l f = (l, Raise IndexError).
Proof.
  intros FX F So L C R0 E0 B. assert (NX : X <> []) by (destruct X; [destruct R0|discriminate]).
  unfold compute_local_effects64. rewrite guards_ok by assumption. cbv zeta iota.
  assert (W : widen64 l = l) by (apply widen64_noop; [lia|apply fins_nth; [exact F|lia]|exact B]). rewrite W. f_equal.
  unfold digitize64. rewrite mono_incr64_sorted by assumption. cbn [bind].
  replace (forallb _ _) with true.
  2:{ symmetry. apply forallb_forall. intros i Hi. apply in_map_iff in Hi as (x & <- & Hx). apply Nat.ltb_lt.
      apply digitize64_iff; [exact F|exact So|now apply FX|lia|]. apply in_map_iff in Hx as (r & <- & Hr). now apply C. }
  cbn [assert_ bind]. rewrite (take_raise l _ (length l)); [reflexivity| |lia].
  apply in_map_iff. exists (nth f r0 fnan). split; [|apply (in_map (fun r => nth f r fnan) X r0 R0)].
  apply digitize64_top; [exact F|exact So|apply FX, (in_map (fun r => nth f r fnan) X r0 R0)|lia|]. unfold last64 in E0. lra.
Qed.

(** below 2^27 every instance has its bin *)
Definition bin_of (l : list b64) (x : b64) : nat := Nat.pred (digitize64_1 l x).

Lemma local_effects_small X g l f : fins (col64 X f) -> X <> [] -> fins l -> sorted64 l -> (2 <= length l)%nat ->
  (forall r, In r X -> val (first64 l) <= val (nth f r fnan) <= val (last64 l)) ->
  - bpow radix2 27 <= val (last64 l) < bpow radix2 27 ->
  compute_local_effects64 X (map g) l f =
    (widen64 l, Ok (map (fun r => fdiv (fsub (g (list_set r f (nth (S (bin_of (widen64 l) (nth f r fnan))) (widen64 l) fnan)))
                                             (g (list_set r f (nth (bin_of (widen64 l) (nth f r fnan)) (widen64 l) fnan))))
                                       (fsub (nth 1 (widen64 l) fnan) (nth 0 (widen64 l) fnan))) X))
  /\ forall r, In r X -> (S (bin_of (widen64 l) (nth f r fnan)) < length l)%nat /\
       val (nth (bin_of (widen64 l) (nth f r fnan)) (widen64 l) fnan) <= val (nth f r fnan)
         < val (nth (S (bin_of (widen64 l) (nth f r fnan))) (widen64 l) fnan).
Proof.
  intros FX NX F So L C B. destruct (widen64_sorted l ltac:(lia) F So B) as (F' & So' & LL).
  set (l' := widen64 l) in *. assert (L' : length l' = length l) by apply widen64_length.
  assert (In' : forall r, In r X -> exists k, digitize64_1 l' (nth f r fnan) = S k /\ (S k < length l')%nat /\
             val (nth k l' fnan) <= val (nth f r fnan) < val (nth (S k) l' fnan)).
  { intros r Hr. apply digitize64_inside; [exact F'|exact So'|apply FX, (in_map (fun r => nth f r fnan) X r Hr)|lia|].
    destruct (C r Hr) as [C1 C2]. split.
    - unfold l'. rewrite widen64_nth by lia. destruct (Nat.eqb_spec 0 (length l - 1)); [lia|exact C1].
    - unfold last64 at 2 in LL. fold l' in LL. lra. }
  assert (Bi : forall r, In r X -> digitize64_1 l' (nth f r fnan) = S (bin_of l' (nth f r fnan)) /\ (S (bin_of l' (nth f r fnan)) < length l)%nat /\
     val (nth (bin_of l' (nth f r fnan)) l' fnan) <= val (nth f r fnan) < val (nth (S (bin_of l' (nth f r fnan))) l' fnan)).
  { intros r Hr. destruct (In' r Hr) as (k & E & K1 & K2). unfold bin_of. rewrite E. cbn [Nat.pred]. repeat split; try tauto; lia. }
  split; [|intros r Hr; now apply Bi].
  unfold compute_local_effects64. rewrite guards_ok by assumption. cbv zeta iota. fold l'. f_equal.
  unfold digitize64. rewrite mono_incr64_sorted by assumption. cbn [bind].
  assert (Ed : map (digitize64_1 l') (col64 X f) = map (fun r => S (bin_of l' (nth f r fnan))) X).
  { unfold col64. rewrite map_map. apply map_ext_in. intros r Hr. now apply Bi. }
  rewrite Ed. replace (forallb _ _) with true by (symmetry; apply forallb_forall; intros i Hi; apply in_map_iff in Hi as (r & <- & _); reflexivity).
  cbn [assert_ bind].
  rewrite take_nth by (intros i Hi; apply in_map_iff in Hi as (r & <- & Hr); destruct (Bi r Hr) as (_ & ? & _); lia). cbn [bind].
  rewrite take_nth by (intros i Hi; apply in_map_iff in Hi as (j & <- & Hj); apply in_map_iff in Hj as (r & <- & Hr); destruct (Bi r Hr) as (_ & ? & _); cbn [Nat.pred]; lia). cbn [bind].
  rewrite !getn_nth by lia. cbn [bind]. rewrite !map_map.
  unfold set_col64, vzip. rewrite !map_length, !combine_length, !map_length, Nat.eqb_refl. cbn [bind]. f_equal.
  clear. induction X as [|r X IH]; [reflexivity|]. cbn [map combine fst snd]. f_equal. apply IH.
Qed.
