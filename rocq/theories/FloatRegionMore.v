(** FloatRegionMore: regions as paths, levels, the first of the best candidates, and existence of the search result. *)
From Coq Require Import Reals.
From Flocq Require Import Core.
From Flocq Require Import IEEE754.BinarySingleNaN.
From Verif Require Import Base Numpy NumpyFacts Utils FloatModel FloatFacts FloatGrid FloatBins FloatMean FloatAcc FloatNan FloatDPGrid FloatAdapt FloatRegion FloatRegionProofs FloatRegionSum FloatRegionTop FloatRegionMain FloatRegionPos.
From Coq Require Import Lra.
Open Scope R_scope.

(** ** regions as paths *)
(** does an instance lie on the left (false) or right (true) side of a split *)
Definition on_side (s : split64) (right : bool) (r : row64) : bool :=
  let v := nth (s64_feature s) (fst r) fnan in
  match s64_type s, right with
  | Cat, false => Beqb v (s64_pos s)
  | Cat, true => negb (Beqb v (s64_pos s))
  | Cont, false => Bltb v (s64_pos s)
  | Cont, true => Bleb (s64_pos s) v
  end.
(** the instance takes the given turns at the given splits *)
Definition follows (ss : list split64) (path : list bool) (r : row64) : bool := forallb (fun p => on_side (fst p) (snd p) r) (combine ss path).
(** all sequences of n turns, the last turn varying fastest, left first *)
Fixpoint paths (n : nat) : list (list bool) := match n with O => [[]] | S n' => flat_map (fun p => [p ++ [false]; p ++ [true]]) (paths n') end.
Lemma paths_length n p : In p (paths n) -> length p = n.
Proof. revert p. induction n as [|n IH]; intros p; cbn [paths]; [intros [<-|[]]; reflexivity|]. rewrite in_flat_map. intros (q & Hq & [<-|[<-|[]]]); rewrite app_length, (IH q Hq); cbn; lia. Qed.
Lemma follows_snoc ss s path b r : length path = length ss -> follows (ss ++ [s]) (path ++ [b]) r = (follows ss path r && on_side s b r)%bool.
Proof.
  unfold follows. revert path. induction ss as [|x ss IH]; intros [|y path] L; try discriminate L; cbn [app combine forallb fst snd]; [now rewrite andb_true_r|].
  rewrite IH by (cbn in L; lia). now rewrite andb_assoc.
Qed.
Lemma filter_and {A} (p q : A -> bool) l : filter q (filter p l) = filter (fun x => p x && q x)%bool l.
Proof. induction l as [|a l IH]; [reflexivity|]. cbn [filter]. destruct (p a); cbn [filter andb]; [destruct (q a)|]; now rewrite IH. Qed.
Theorem regions_paths g ss : regions_after g ss = map (fun p => filter (follows ss p) (g64_rows g)) (paths (length ss)).
Proof.
  induction ss as [|s ss IH] using rev_ind.
  - cbn. f_equal. symmetry. assert (G : forall l : list row64, filter (follows [] []) l = l) by (induction l as [|a l I]; cbn [filter]; [reflexivity|now rewrite I]). apply G.
  - unfold regions_after in *. rewrite fold_left_app. cbn [fold_left]. rewrite IH. rewrite app_length, Nat.add_comm. cbn [length Nat.add paths]. unfold split_all64.
    assert (G : forall ps, (forall p, In p ps -> length p = length ss) ->
      flat_map (fun x => let '(a, b) := split_dataset64 x (s64_feature s) (s64_pos s) (s64_type s) in [a; b]) (map (fun p => filter (follows ss p) (g64_rows g)) ps) =
      map (fun p => filter (follows (ss ++ [s]) p) (g64_rows g)) (flat_map (fun p => [p ++ [false]; p ++ [true]]) ps)).
    { induction ps as [|p ps I]; intros L; [reflexivity|]. cbn [map flat_map]. rewrite I by (intros q Hq; apply L; now right). cbn [app map]. unfold split_dataset64. cbn [app]. rewrite !filter_and.
      f_equal; [|f_equal]; apply filter_ext; intros r; rewrite follows_snoc by (apply L; now left); f_equal; unfold on_side, goes_left64, goes_right64, feat64; destruct (s64_type s); reflexivity. }
    apply G. apply paths_length.
Qed.

(** ** levels *)
Lemma levels_spec g : forall n xs before ss, search_levels64 g n xs before = Ok ss ->
  let after := fold_left (fun xs s => split_all64 xs (s64_feature s) (s64_pos s) (s64_type s)) in
  (length ss <= n)%nat /\
  (forall pre s post, ss = pre ++ s :: post -> forall x, In x (after pre xs) -> (g64_min_points g <= length x)%nat) /\
  ((length ss < n)%nat -> exists x, In x (after ss xs) /\ (length x < g64_min_points g)%nat).
Proof.
  induction n as [|n IH]; intros xs before ss H after; cbn [search_levels64] in H.
  - injection H as <-. cbn. split; [lia|]. split; [intros [] ? ? E; discriminate E|lia].
  - destruct (existsb _ xs) eqn:X.
    + injection H as <-. cbn. split; [lia|]. split; [intros [] ? ? E; discriminate E|]. intros _. apply existsb_exists in X as (x & Hx & L). apply Nat.ltb_lt in L. exists x. auto.
    + apply bind_ok in H as (s & S1 & H). apply bind_ok in H as (rest & R & H). injection H as <-. destruct (IH _ _ _ R) as (I1 & I2 & I3). cbn [length]. split; [lia|]. split.
      * intros [|p pre] s' post E x Hx; cbn [app] in E; injection E as <- E; [|cbn [after fold_left] in Hx; eapply I2; eauto].
        destruct (Nat.leb_spec (g64_min_points g) (length x)) as [|L]; [assumption|]. exfalso. assert (existsb (fun x => Nat.ltb (length x) (g64_min_points g)) xs = true) by (apply existsb_exists; exists x; split; [exact Hx|now apply Nat.ltb_lt]). congruence.
      * intros L. apply I3. lia.
Qed.

(** ** the first of the best candidates *)
Lemma lt_nle64 (x y : b64) : is_nan x = false -> is_nan y = false -> Bltb x y = negb (Bleb y x).
Proof.
  intros Nx Ny. unfold Bltb, Bleb, SpecFloat.SFltb, SpecFloat.SFleb. assert (H : forall a b : b64, is_nan a = false -> is_nan b = false -> exists c, SpecFloat.SFcompare (B2SF a) (B2SF b) = Some c /\ SpecFloat.SFcompare (B2SF b) (B2SF a) = Some (CompOpp c)).
  { intros a b Na Nb. pose proof (Bcompare_swap 53 1024 a b) as W. unfold Bcompare in W. rewrite W. destruct (SpecFloat.SFcompare (B2SF a) (B2SF b)) as [c|] eqn:C; [eexists; split; reflexivity|]. exfalso.
    destruct a as [[]|[]| |[]], b as [[]|[]| |[]]; try discriminate Na; try discriminate Nb; cbn in C; try discriminate C; destruct (Z.compare _ _) in C; try discriminate C. }
  destruct (H x y Nx Ny) as (c & -> & ->). destruct c; reflexivity.
Qed.
Lemma le_nonnan (a b : b64) : Bleb a b = true -> is_nan a = false /\ is_nan b = false. Proof. intros H. destruct a, b; auto; discriminate H. Qed.
Lemma le_lt_trans64 (x y z : b64) : Bleb x y = true -> Bltb y z = true -> Bltb x z = true.
Proof.
  intros H1 H2. destruct (le_nonnan _ _ H1) as [Nx Ny]. assert (Nz : is_nan z = false) by (destruct z; auto; destruct y; discriminate H2).
  rewrite lt_nle64 in * by assumption. apply negb_true_iff. apply negb_true_iff in H2. apply not_true_iff_false. intros H3. apply not_true_iff_false in H2. apply H2. eapply le_trans64; eassumption.
Qed.
Lemma argmax_from_first l : forall best bi i d, is_nan best = false -> (bi < i)%nat -> forall all, length all = (i + length l)%nat ->
  (forall n, (n < length l)%nat -> nth n l d = nth (i + n) all d) -> nth bi all d = best -> (forall n, (n < i)%nat -> Bleb (nth n all d) best = true) ->
  (forall n, (n < bi)%nat -> Bltb (nth n all d) best = true) ->
  let k := argmax_from64 best bi i l in is_nan (nth k all d) = false -> forall n, (n < k)%nat -> Bltb (nth n all d) (nth k all d) = true.
Proof.
  induction l as [|a l IH]; intros best bi i d Nb Hb all La Hl Eb Hm Hf k; subst k; cbn [argmax_from64].
  - rewrite Eb. auto.
  - cbn [length] in La. assert (Ea : nth i all d = a) by (specialize (Hl 0%nat ltac:(cbn; lia)); rewrite Nat.add_0_r in Hl; symmetry; exact Hl).
    assert (Hl' : forall n, (n < length l)%nat -> nth n l d = nth (S i + n) all d) by (intros n Hn; specialize (Hl (S n) ltac:(cbn; lia)); cbn [nth] in Hl; rewrite Hl; f_equal; lia).
    destruct (Bleb a best) eqn:C.
    + apply IH; auto; try lia. intros n Hn. destruct (Nat.eq_dec n i) as [->|]; [now rewrite Ea|apply Hm; lia].
    + destruct (is_nan a) eqn:Na.
      * rewrite Ea, Na. discriminate.
      * pose proof (nle_flip a best Na Nb C) as C'. assert (C2 : Bltb best a = true) by (rewrite lt_nle64 by assumption; now rewrite C). apply IH; auto; try lia.
        -- intros n Hn. destruct (Nat.eq_dec n i) as [->|]; [rewrite Ea; now apply le_refl64|]. eapply le_trans64; [apply Hm; lia|exact C'].
        -- intros n Hn. eapply le_lt_trans64; [apply Hm; lia|exact C2].
Qed.
Lemma argmax_first l k d : argmax64 l = Ok k -> is_nan (nth k l d) = false -> forall n, (n < k)%nat -> Bltb (nth n l d) (nth k l d) = true.
Proof.
  destruct l as [|a l]; [discriminate|]. cbn [argmax64]. intros H. injection H as <-. destruct (is_nan a) eqn:N; [intros _ n Hn; lia|].
  apply argmax_from_first; auto; try (intros; reflexivity); try (cbn; lia).
  intros n Hn. assert (n = 0%nat) by lia. subst n. now apply le_refl64.
Qed.
Lemma combine_nth2 {A B} (l : list A) (l' : list B) : forall n a b, (n < length l)%nat -> (n < length l')%nat -> nth n (combine l l') (a, b) = (nth n l a, nth n l' b).
Proof. revert l'. induction l as [|x l IH]; intros [|y l'] n a b H H'; cbn in H, H'; try lia. destruct n; cbn [combine nth]; [reflexivity|]. apply IH; lia. Qed.

(** the j-th position of the i-th conditioning feature *)
Definition candidate_at (g : regions64) (i j f : nat) (t : ftype) (pos : b64) : Prop :=
  nth_error (combine (g64_foc g) (g64_foc_types g)) i = Some (f, t) /\ exists ps, positions64 g f t = Ok ps /\ nth_error ps j = Some pos.

Lemma table_rows g xs before tbl : table64 g xs before = Ok tbl -> let ft := combine (g64_foc g) (g64_foc_types g) in
  length tbl = length ft /\ (forall r, In r tbl -> (length r <= width64 g)%nat) /\
  forall i, (i < length ft)%nat -> exists ps, positions64 g (fst (nth i ft (0%nat, Cont))) (snd (nth i ft (0%nat, Cont))) = Ok ps /\ length (nth i tbl []) = length ps /\
     forall j, (j < length ps)%nat -> (j < width64 g)%nat /\ exists v, evaluate64 g xs before (fst (nth i ft (0%nat, Cont))) (nth j ps fnan) (snd (nth i ft (0%nat, Cont))) = Ok v /\ nth j (nth i tbl []) cell0 = (nth j ps fnan, snd v).
Proof.
  intros T ft. assert (LT : length tbl = length ft) by (eapply mapM_length; exact T).
  assert (ROW : forall i, (i < length ft)%nat -> exists ps, positions64 g (fst (nth i ft (0%nat, Cont))) (snd (nth i ft (0%nat, Cont))) = Ok ps /\ length (nth i tbl []) = length ps /\
     forall j, (j < length ps)%nat -> (j < width64 g)%nat /\ exists v, evaluate64 g xs before (fst (nth i ft (0%nat, Cont))) (nth j ps fnan) (snd (nth i ft (0%nat, Cont))) = Ok v /\ nth j (nth i tbl []) cell0 = (nth j ps fnan, snd v)).
  { intros i0 H0. pose proof (mapM_nth _ _ _ i0 (0%nat, Cont) [] T ltac:(exact H0)) as M. cbv beta in M. fold ft in M. apply bind_ok in M as (ps & P & M). exists ps. split; [exact P|].
    assert (LL : length (nth i0 tbl []) = length ps). { apply mapM_length in M. rewrite M, combine_length, seq_length. lia. }
    split; [exact LL|]. intros j0 Hj0. pose proof (mapM_nth _ _ _ j0 (0%nat, fnan) cell0 M) as N. rewrite combine_length, seq_length in N. specialize (N ltac:(lia)). cbv beta in N.
    rewrite (combine_nth (seq 0 (length ps)) ps j0 0%nat fnan (seq_length _ _)) in N. rewrite seq_nth in N by exact Hj0. cbn [fst snd Nat.add] in N. fold ft in N. apply bind_ok in N as (v & V & N).
    destruct (Nat.ltb_spec j0 (width64 g)); [|discriminate N]. injection N as N. split; [assumption|]. exists v. split; [exact V|]. symmetry. exact N. }
  split; [exact LT|]. split; [|exact ROW].
  intros r Hr'. apply (In_nth _ _ []) in Hr' as (n & Hn & <-). destruct (ROW n ltac:(lia)) as (ps & _ & L & J). rewrite L. destruct ps as [|p ps]; [cbn; lia|]. specialize (J (length ps) ltac:(cbn; lia)). cbn [length]. lia.
Qed.

Lemma nth_error_nth_eq {A} (l : list A) i x d : nth_error l i = Some x -> (i < length l)%nat /\ nth i l d = x.
Proof. intros H. split; [apply nth_error_Some; congruence|now apply nth_error_nth]. Qed.
Theorem single_level_first g xs before s : single_level64 g xs before = Ok s -> is_nan (s64_drop s) = false ->
  exists i j, candidate_at g i j (s64_feature s) (s64_type s) (s64_pos s) /\
  forall i' j' f t pos, candidate_at g i' j' f t pos -> (i' < i \/ i' = i /\ j' < j)%nat ->
    exists sub d w, evaluate64 g xs before f pos t = Ok (sub, (d, w)) /\ Bltb d (s64_drop s) = true.
Proof.
  unfold single_level64. intros H. apply bind_ok in H as (tbl & T & H). apply bind_ok in H as (k & K & H). cbv zeta in H.
  set (i := (k / width64 g)%nat) in *. set (j := (k mod width64 g)%nat) in *.
  apply bind_ok in H as (f & Hf & H). apply bind_ok in H as (t & Ht & H). apply bind_ok in H as (row & Hr & H). apply bind_ok in H as (c & Hc & H). apply bind_ok in H as (sub & Hs & H).
  injection H as <-. cbn [s64_feature s64_type s64_pos s64_heter s64_drop s64_wheter s64_nof].
  destruct (getn_nth _ _ _ 0%nat Hf) as [Li Ef]. destruct (getn_nth _ _ _ Cont Ht) as [Lt Et]. destruct (getn_nth _ _ _ [] Hr) as [Lr Er]. destruct (getn_nth _ _ _ cell0 Hc) as [Lc Ec].
  destruct (table_rows _ _ _ _ T) as (LT & W & ROW). set (ft := combine (g64_foc g) (g64_foc_types g)) in *.
  assert (Ek : (i * width64 g + j = k)%nat). { unfold i, j. rewrite Nat.mul_comm. symmetry. destruct (Nat.eq_dec (width64 g) 0) as [->|Wn]; [cbn; reflexivity|]. apply Nat.div_mod. exact Wn. }
  rewrite <- Er in Lc. destruct (flat_nth _ _ i j W Lr Lc) as [_ FK]. rewrite Ek in FK. rewrite Er, Ec in FK. intros NN. pose proof (argmax_first _ _ fnan K) as F. rewrite FK in F. specialize (F NN).
  assert (Lft : (i < length ft)%nat) by lia. assert (Eft : nth i ft (0%nat, Cont) = (f, t)) by (unfold ft in Lft |- *; rewrite combine_length in Lft; rewrite combine_nth2 by lia; now rewrite Ef, Et).
  destruct (ROW i Lft) as (ps & P & LP & J). rewrite Eft in P, J. cbn [fst snd] in P, J. rewrite LP in Lc. destruct (J j Lc) as [Jw (v & V & Cv)]. rewrite Er in Cv. rewrite Cv in Ec.
  exists i, j. split.
  - split; [fold ft; rewrite (nth_error_nth' ft (0%nat, Cont) Lft); now rewrite Eft|]. exists ps. split; [exact P|]. rewrite (nth_error_nth' ps fnan Lc). f_equal. rewrite <- Ec. reflexivity.
  - intros i' j' f' t' pos' (N1 & ps' & P' & N2) LEX. fold ft in N1. apply (nth_error_nth_eq _ _ _ (0%nat, Cont)) in N1 as [Hi' E']. apply (nth_error_nth_eq _ _ _ fnan) in N2 as [Hj' Ep'].
    destruct (ROW i' Hi') as (ps2 & P2 & L2 & J2). rewrite E' in P2, J2. cbn [fst snd] in P2, J2. rewrite P' in P2. injection P2 as <-. destruct (J2 j' Hj') as [Jw' (v' & V' & C')]. rewrite Ep' in V'.
    destruct v' as [sub' [d' w']]. exists sub', d', w'. split; [exact V'|]. destruct (flat_nth _ _ i' j' W) as [FL FV]; [lia|rewrite L2; exact Hj'|]. rewrite C' in FV. cbn [fst snd] in FV.
    rewrite <- FV. apply F. destruct LEX as [LX|[-> LX]]; [|lia]. assert ((i' + 1) * width64 g <= i * width64 g)%nat by (apply Nat.mul_le_mono_r; lia). lia.
Qed.
