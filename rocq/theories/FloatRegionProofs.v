(** FloatRegionProofs: what the binary64 split search of FloatRegion chooses. *)
From Coq Require Import Reals.
From Flocq Require Import Core.
From Flocq Require Import IEEE754.BinarySingleNaN.
From Verif Require Import Base Numpy NumpyFacts Utils FloatModel FloatFacts FloatGrid FloatMean FloatNan FloatRegion.
From Coq Require Import Lra.
Open Scope R_scope.

(** ** order of non-NaN floats *)
Definition ord (x : b64) : R := match x with B754_infinity s => if s then - bpow radix2 1024 else bpow radix2 1024 | _ => val x end.
Lemma fin_range (x : b64) : fin x -> - bpow radix2 1024 < val x < bpow radix2 1024.
Proof. intros F. pose proof (abs_B2R_lt_emax 53 1024 x) as H. apply Rabs_def2 in H. lra. Qed.
Lemma ord_le (x y : b64) : is_nan x = false -> is_nan y = false -> Bleb x y = true <-> ord x <= ord y.
Proof.
  intros Nx Ny. pose proof (bpow_gt_0 radix2 1024) as P.
  assert (G : forall z : b64, is_nan z = false -> fin z \/ exists s, z = B754_infinity s) by (intros []; intros; try discriminate; [left|right; eexists|left]; reflexivity).
  destruct (G x Nx) as [Fx|[s ->]], (G y Ny) as [Fy|[s' ->]].
  - rewrite fle_val by assumption. destruct x, y; try discriminate Fx; try discriminate Fy; reflexivity.
  - pose proof (fin_range x Fx) as R. assert (O : ord x = val x) by (destruct x; try discriminate Fx; reflexivity). rewrite O. cbn [ord].
    destruct x, s'; try discriminate Fx; cbn [Bleb] in *; split; intros; try lra; try reflexivity; try discriminate; exfalso; unfold Bleb, SFleb in H; cbn in H; try (destruct s; discriminate); lra.
  - pose proof (fin_range y Fy) as R. assert (O : ord y = val y) by (destruct y; try discriminate Fy; reflexivity). rewrite O. cbn [ord].
    destruct y, s; try discriminate Fy; cbn [Bleb] in *; split; intros; try lra; try reflexivity; try discriminate; exfalso; unfold Bleb, SFleb in H; cbn in H; try (destruct s; discriminate); lra.
  - destruct s, s'; cbn [ord]; split; intros; try lra; try reflexivity; try discriminate.
Qed.
Lemma le_trans64 (x y z : b64) : Bleb x y = true -> Bleb y z = true -> Bleb x z = true.
Proof.
  intros H1 H2. assert (N : forall a b : b64, Bleb a b = true -> is_nan a = false /\ is_nan b = false) by (intros [] [] H; auto; discriminate H).
  destruct (N _ _ H1), (N _ _ H2). rewrite ord_le in * by assumption. lra.
Qed.
Lemma nle_flip (x y : b64) : is_nan x = false -> is_nan y = false -> Bleb x y = false -> Bleb y x = true.
Proof. intros Nx Ny H. rewrite ord_le by assumption. apply not_true_iff_false in H. rewrite ord_le in H by assumption. lra. Qed.
Lemma le_refl64 (x : b64) : is_nan x = false -> Bleb x x = true.
Proof. intros N. rewrite ord_le by assumption. lra. Qed.

(** ** np.argmax *)
Lemma argmax_from_spec l : forall best bi i d, is_nan best = false -> (bi < i)%nat -> forall all, length all = (i + length l)%nat ->
  (forall n, (n < length l)%nat -> nth n l d = nth (i + n) all d) -> nth bi all d = best -> (forall n, (n < i)%nat -> Bleb (nth n all d) best = true) ->
  let k := argmax_from64 best bi i l in
  (k < length all)%nat /\ ((exists n, (n < length all)%nat /\ is_nan (nth n all d) = true) -> is_nan (nth k all d) = true) /\
  (is_nan (nth k all d) = false -> forall n, (n < length all)%nat -> Bleb (nth n all d) (nth k all d) = true).
Proof.
  induction l as [|a l IH]; intros best bi i d Nb Hb all La Hl Eb Hm k; subst k; cbn [argmax_from64].
  - cbn in La. rewrite Nat.add_0_r in La. rewrite Eb, La. split; [lia|]. split; [|intros _ n Hn; apply Hm; lia].
    intros (n & Hn & N). specialize (Hm n Hn). destruct (nth n all d); try discriminate N. destruct best; discriminate Hm.
  - cbn [length] in La. assert (Ea : nth i all d = a) by (specialize (Hl 0%nat ltac:(cbn; lia)); rewrite Nat.add_0_r in Hl; symmetry; exact Hl).
    assert (Hl' : forall n, (n < length l)%nat -> nth n l d = nth (S i + n) all d) by (intros n Hn; specialize (Hl (S n) ltac:(cbn; lia)); cbn [nth] in Hl; rewrite Hl; f_equal; lia).
    destruct (Bleb a best) eqn:C.
    + apply IH; auto; try lia. intros n Hn. destruct (Nat.eq_dec n i) as [->|]; [now rewrite Ea|apply Hm; lia].
    + destruct (is_nan a) eqn:Na.
      * split; [lia|]. rewrite Ea, Na. split; auto. discriminate.
      * pose proof (nle_flip a best Na Nb C) as C'. apply IH; auto; try lia. intros n Hn.
        destruct (Nat.eq_dec n i) as [->|]; [rewrite Ea; now apply le_refl64|]. eapply le_trans64; [apply Hm; lia|exact C'].
Qed.
Lemma argmax_spec l k d : argmax64 l = Ok k -> (k < length l)%nat /\
  ((exists n, (n < length l)%nat /\ is_nan (nth n l d) = true) -> is_nan (nth k l d) = true) /\
  (is_nan (nth k l d) = false -> forall n, (n < length l)%nat -> Bleb (nth n l d) (nth k l d) = true).
Proof.
  destruct l as [|a l]; [discriminate|]. cbn [argmax64]. intros H. injection H as <-. destruct (is_nan a) eqn:N.
  - split; [cbn; lia|]. cbn [nth]. rewrite N. split; auto. discriminate.
  - apply argmax_from_spec; auto; try (intros; reflexivity); try (cbn; lia).
    intros n Hn. assert (n = 0%nat) by lia. subst n. now apply le_refl64.
Qed.

(** ** the tables *)
Lemma mapM_nth {A B} (h : A -> res B) : forall l l' i da db, mapM h l = Ok l' -> (i < length l)%nat -> h (nth i l da) = Ok (nth i l' db).
Proof.
  induction l as [|a l IH]; intros l' i da db H Hi; [cbn in Hi; lia|]. cbn [mapM] in H. apply bind_ok in H as (b & H1 & H). apply bind_ok in H as (bs & H2 & H). injection H as <-.
  destruct i as [|i]; cbn [nth]; [exact H1|]. apply IH; auto. cbn in Hi; lia.
Qed.
Lemma getn_nth {A} (l : list A) i a d : getn l i = Ok a -> (i < length l)%nat /\ nth i l d = a.
Proof. unfold getn. destruct (nth_error l i) eqn:E; [|discriminate]. intros H. injection H as <-. split; [apply nth_error_Some; congruence|now apply nth_error_nth]. Qed.
Lemma nth_getn {A} (l : list A) i d : (i < length l)%nat -> getn l i = Ok (nth i l d).
Proof. intros H. unfold getn. now rewrite (nth_error_nth' l d H). Qed.

Notation cell := (b64 * (b64 * b64))%type.
Definition cell0 : cell := (fnan, (fnan, fnan)).
Lemma flat_nth w (tbl : list (list cell)) : forall i j, (forall r, In r tbl -> (length r <= w)%nat) -> (i < length tbl)%nat -> (j < length (nth i tbl []))%nat ->
  (i * w + j < length (flat_drops64 w tbl))%nat /\ nth (i * w + j) (flat_drops64 w tbl) fnan = fst (snd (nth j (nth i tbl []) cell0)).
Proof.
  induction tbl as [|r tbl IH]; intros i j W Hi Hj; [cbn in Hi; lia|].
  set (p := map (fun c : cell => fst (snd c)) r ++ repeat (Bopp BIGM64) (w - length r)).
  assert (Lp : length p = w). { unfold p. rewrite app_length, map_length, repeat_length. specialize (W r (or_introl eq_refl)). lia. }
  change (flat_drops64 w (r :: tbl)) with (p ++ flat_drops64 w tbl). destruct i as [|i]; cbn [nth] in Hj |- *; cbn [Nat.mul Nat.add].
  - assert (j < w)%nat by (specialize (W r (or_introl eq_refl)); lia). rewrite app_length, Lp. split; [lia|]. rewrite app_nth1 by lia. unfold p.
    rewrite app_nth1 by (rewrite map_length; exact Hj). rewrite (nth_indep _ _ ((fun c : cell => fst (snd c)) cell0)) by (rewrite map_length; exact Hj). now rewrite (map_nth (fun c : cell => fst (snd c))).
  - destruct (IH i j) as [I1 I2]; [intros r' Hr'; apply W; now right|cbn in Hi; lia|exact Hj|]. rewrite app_length, Lp. split; [lia|]. rewrite app_nth2 by lia. rewrite Lp. rewrite <- I2. f_equal. lia.
Qed.

(** a candidate split: a conditioning feature, its type and one of its candidate positions *)
Definition candidate64 (g : regions64) (f : nat) (t : ftype) (pos : b64) : Prop :=
  In (f, t) (combine (g64_foc g) (g64_foc_types g)) /\ exists ps, positions64 g f t = Ok ps /\ In pos ps.

Lemma single_level_spec g xs before s : single_level64 g xs before = Ok s ->
  candidate64 g (s64_feature s) (s64_type s) (s64_pos s) /\
  evaluate64 g xs before (s64_feature s) (s64_pos s) (s64_type s) = Ok (s64_heter s, (s64_drop s, s64_wheter s)) /\
  s64_nof s = map (@length row64) (split_all64 xs (s64_feature s) (s64_pos s) (s64_type s)) /\
  (forall f t pos, candidate64 g f t pos -> exists sub d w, evaluate64 g xs before f pos t = Ok (sub, (d, w)) /\
     (is_nan d = true -> is_nan (s64_drop s) = true) /\ (is_nan (s64_drop s) = false -> Bleb d (s64_drop s) = true)).
Proof.
  unfold single_level64. intros H. apply bind_ok in H as (tbl & T & H). apply bind_ok in H as (k & K & H). cbv zeta in H.
  set (i := (k / width64 g)%nat) in *. set (j := (k mod width64 g)%nat) in *.
  apply bind_ok in H as (f & Hf & H). apply bind_ok in H as (t & Ht & H). apply bind_ok in H as (row & Hr & H). apply bind_ok in H as (c & Hc & H). apply bind_ok in H as (sub & Hs & H).
  injection H as <-. cbn [s64_feature s64_type s64_pos s64_heter s64_drop s64_wheter s64_nof].
  destruct (getn_nth _ _ _ 0%nat Hf) as [Li Ef]. destruct (getn_nth _ _ _ Cont Ht) as [Lt Et]. destruct (getn_nth _ _ _ [] Hr) as [Lr Er]. destruct (getn_nth _ _ _ cell0 Hc) as [Lc Ec].
  set (ft := combine (g64_foc g) (g64_foc_types g)) in *.
  assert (LT : length tbl = length ft) by (eapply mapM_length; exact T).
  assert (ROW : forall i, (i < length ft)%nat -> exists ps, positions64 g (fst (nth i ft (0%nat, Cont))) (snd (nth i ft (0%nat, Cont))) = Ok ps /\ length (nth i tbl []) = length ps /\
     forall j, (j < length ps)%nat -> (j < width64 g)%nat /\ exists v, evaluate64 g xs before (fst (nth i ft (0%nat, Cont))) (nth j ps fnan) (snd (nth i ft (0%nat, Cont))) = Ok v /\ nth j (nth i tbl []) cell0 = (nth j ps fnan, snd v)).
  { intros i0 H0. pose proof (mapM_nth _ _ _ i0 (0%nat, Cont) [] T ltac:(exact H0)) as M. cbv beta in M. fold ft in M. apply bind_ok in M as (ps & P & M). exists ps. split; [exact P|].
    assert (LL : length (nth i0 tbl []) = length ps). { apply mapM_length in M. rewrite M, combine_length, seq_length. lia. }
    split; [exact LL|]. intros j0 Hj0. pose proof (mapM_nth _ _ _ j0 (0%nat, fnan) cell0 M) as N. rewrite combine_length, seq_length in N. specialize (N ltac:(lia)). cbv beta in N.
    rewrite (combine_nth (seq 0 (length ps)) ps j0 0%nat fnan (seq_length _ _)) in N. rewrite seq_nth in N by exact Hj0. cbn [fst snd Nat.add] in N. fold ft in N. apply bind_ok in N as (v & V & N).
    destruct (Nat.ltb_spec j0 (width64 g)); [|discriminate N]. injection N as N. split; [assumption|]. exists v. split; [exact V|]. symmetry. exact N. }
  assert (W : forall r, In r tbl -> (length r <= width64 g)%nat).
  { intros r Hr'. apply (In_nth _ _ []) in Hr' as (n & Hn & <-). destruct (ROW n ltac:(lia)) as (ps & _ & L & J). rewrite L. destruct ps as [|p ps]; [cbn; lia|]. specialize (J (length ps) ltac:(cbn; lia)). cbn [length]. lia. }
  pose proof (argmax_spec _ _ fnan K) as (Kl & KN & KM).
  assert (Ek : (i * width64 g + j = k)%nat). { unfold i, j. rewrite Nat.mul_comm. symmetry. destruct (Nat.eq_dec (width64 g) 0) as [->|Wn]; [cbn; reflexivity|]. apply Nat.div_mod. exact Wn. }
  rewrite <- Er in Lc. destruct (flat_nth _ _ i j W Lr Lc) as [_ FK]. rewrite Ek in FK. rewrite Er, Ec in FK. rewrite FK in KN, KM.
  assert (Lft : (i < length ft)%nat) by lia. assert (Eft : nth i ft (0%nat, Cont) = (f, t)).
  { unfold ft. unfold ft in Lft. rewrite combine_length in Lft. assert (G : forall (A B : Type) (l : list A) (l' : list B) n a b, (n < length l)%nat -> (n < length l')%nat -> nth n (combine l l') (a, b) = (nth n l a, nth n l' b)).
    { clear. intros A B. induction l as [|x l IH]; intros [|y l'] n a b H H'; cbn in H, H'; try lia. destruct n; cbn [combine nth]; [reflexivity|]. apply IH; lia. }
    rewrite G by lia. now rewrite Ef, Et. }
  destruct (ROW i Lft) as (ps & P & LP & J). rewrite Eft in P, J. cbn [fst snd] in P, J. rewrite LP in Lc. destruct (J j Lc) as [_ (v & V & Cv)].
  rewrite Er in Cv. rewrite Cv in Ec. subst c. cbn [fst snd] in *.
  split; [|split; [|split; [reflexivity|]]].
  - split; [rewrite <- Eft; now apply nth_In|]. exists ps. split; [exact P|now apply nth_In].
  - rewrite V. destruct v as [vs [vd vw]]. cbn [fst snd] in *. f_equal. f_equal.
    unfold evaluate64 in V. apply bind_ok in V as (s' & V1 & V). apply bind_ok in V as (c' & V2 & V). injection V as <- _. rewrite V1 in Hs. now injection Hs.
  - intros f' t' pos' [Hin (ps' & P' & Hp')]. fold ft in Hin. apply  (In_nth _ _ (0%nat, Cont)) in Hin as (i' & Hi' & E'). destruct (ROW i' Hi') as (ps2 & P2 & L2 & J2). rewrite E' in P2, J2. cbn [fst snd] in P2, J2.
    rewrite P' in P2. injection P2 as <-. apply (In_nth _ _ fnan) in Hp' as (j' & Hj' & Ep'). destruct (J2 j' Hj') as [Jw (v' & V' & C')]. rewrite Ep' in V'.
    destruct v' as [sub' [d' w']]. exists sub', d', w'. split; [exact V'|]. destruct (flat_nth _ _ i' j' W) as [FL FV]; [lia|rewrite L2; exact Hj'|]. rewrite C' in FV. cbn [fst snd] in FV.
    split; [intros ND; apply KN; exists (i' * width64 g + j')%nat; rewrite FV; auto|]. intros NS. rewrite <- FV. now apply KM.
Qed.
