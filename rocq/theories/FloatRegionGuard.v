(** FloatRegionGuard: the search calls heter_func on parts of the data only. *)
From Coq Require Import Reals.
From Flocq Require Import Core.
From Flocq Require Import IEEE754.BinarySingleNaN.
From Verif Require Import Base Numpy NumpyFacts Utils FloatModel FloatRegion FloatRegionProofs FloatRegionTop.

Definition sf_dec (a b : SpecFloat.spec_float) : {a = b} + {a <> b}.
Proof. decide equality; try apply Bool.bool_dec; try apply Pos.eq_dec; apply Z.eq_dec. Defined.
Definition b64_dec (a b : b64) : {a = b} + {a <> b}.
Proof.
  destruct (sf_dec (B2SF a) (B2SF b)) as [E|E]; [left; now apply B2SF_inj|right; now intros ->].
Defined.
Definition row64_dec (a b : row64) : {a = b} + {a <> b}.
Proof. destruct a as [a a'], b as [b b']. destruct (list_eq_dec b64_dec a b) as [->|]; [|right; congruence]. destruct (list_eq_dec b64_dec a' b') as [->|]; [left; reflexivity|right; congruence]. Defined.
(** some of the rows: only such rows, not more of them *)
Definition part_of (rows x : list row64) : Prop := incl x rows /\ (length x <= length rows)%nat.
Definition part (rows x : list row64) : bool := forallb (fun r => if in_dec row64_dec r rows then true else false) x && Nat.leb (length x) (length rows).
Lemma part_spec rows x : part rows x = true <-> part_of rows x.
Proof.
  unfold part, part_of, incl. rewrite andb_true_iff, forallb_forall, Nat.leb_le. split; intros [H L]; (split; [|exact L]); intros r Hr; specialize (H r Hr); destruct (in_dec row64_dec r rows); auto; discriminate.
Qed.
Lemma part_refl rows : part_of rows rows. Proof. split; [apply incl_refl|apply Nat.le_refl]. Qed.
Lemma part_filter rows x h : part_of rows x -> part_of rows (filter h x).
Proof. intros [I L]. split; [intros r Hr; apply filter_In in Hr as [Hr _]; now apply I|]. eapply Nat.le_trans; [|exact L]. clear. induction x as [|a x IH]; [reflexivity|]. cbn [filter]. destruct (h a); cbn [length]; lia. Qed.

(** heter_func restricted to the parts of the data *)
Definition guard (g : regions64) : regions64 :=
  mkRegions64 (fun x => if part (g64_rows g) x then g64_heter g x else Raise NonFinite) (g64_sum g) (g64_rows g) (g64_type g) (g64_foc g) (g64_foc_types g) (g64_cat_limit g)
    (g64_min_points g) (g64_nof_splits g) (g64_max_levels g) (g64_thres g) (g64_small g) (g64_split_cat g).
Definition parts (g : regions64) (xs : list (list row64)) : Prop := forall x, In x xs -> part_of (g64_rows g) x.

Lemma guard_heter g x : part_of (g64_rows g) x -> g64_heter (guard g) x = g64_heter g x.
Proof. intros H. cbn [guard g64_heter]. now rewrite (proj2 (part_spec _ _) H). Qed.
Lemma guard_ok g x v : g64_heter (guard g) x = Ok v -> part_of (g64_rows g) x /\ g64_heter g x = Ok v.
Proof. cbn [guard g64_heter]. destruct (part (g64_rows g) x) eqn:E; [|discriminate]. apply part_spec in E. auto. Qed.
Lemma mapM_ext_in {A B} (f h : A -> res B) l : (forall x, In x l -> f x = h x) -> mapM f l = mapM h l.
Proof. induction l as [|a l IH]; intros H; [reflexivity|]. cbn [mapM]. rewrite (H a (or_introl eq_refl)), IH; [reflexivity|]. intros x Hx. apply H. now right. Qed.
Lemma guard_mapM g xs : parts g xs -> mapM (g64_heter (guard g)) xs = mapM (g64_heter g) xs.
Proof. intros P. apply mapM_ext_in. intros x Hx. apply guard_heter, P, Hx. Qed.
Lemma split_all_parts g xs f pos t : parts g xs -> parts g (split_all64 xs f pos t).
Proof.
  intros P x Hx. unfold split_all64 in Hx. apply in_flat_map in Hx as (y & Hy & Hx). cbn [split_dataset64] in Hx.
  assert (S : forall h, part_of (g64_rows g) (filter h y)) by (intros h; apply part_filter, P, Hy). destruct Hx as [<-|[<-|[]]]; apply S.
Qed.
Lemma regions_after_parts g pre : parts g (regions_after g pre).
Proof.
  unfold regions_after. assert (G : forall xs, parts g xs -> parts g (fold_left (fun xs s => split_all64 xs (s64_feature s) (s64_pos s) (s64_type s)) pre xs)).
  { induction pre as [|s pre IH]; intros xs P; [exact P|]. cbn [fold_left]. apply IH. now apply split_all_parts. }
  apply G. intros x [<-|[]]. apply part_refl.
Qed.
Lemma guard_evaluate g xs before f pos t : parts g xs -> evaluate64 (guard g) xs before f pos t = evaluate64 g xs before f pos t.
Proof. intros P. unfold evaluate64. rewrite guard_mapM by now apply split_all_parts. reflexivity. Qed.
Lemma guard_table g xs before : parts g xs -> table64 (guard g) xs before = table64 g xs before.
Proof.
  intros P. unfold table64. apply mapM_ext_in. intros ft _. change (positions64 (guard g) (fst ft) (snd ft)) with (positions64 g (fst ft) (snd ft)). destruct (positions64 g (fst ft) (snd ft)) as [ps|e]; [|reflexivity]. cbn [bind].
  apply mapM_ext_in. intros jp _. now rewrite guard_evaluate by exact P.
Qed.
Lemma guard_single g xs before : parts g xs -> single_level64 (guard g) xs before = single_level64 g xs before.
Proof.
  intros P. unfold single_level64. rewrite guard_table by exact P. destruct (table64 g xs before) as [tbl|e]; [|reflexivity]. cbn [bind]. change (width64 (guard g)) with (width64 g).
  destruct (argmax64 (flat_drops64 (width64 g) tbl)) as [k|e]; [|reflexivity]. cbn [bind]. change (g64_foc (guard g)) with (g64_foc g). change (g64_foc_types (guard g)) with (g64_foc_types g).
  destruct (getn (g64_foc g) _) as [f|e]; [|reflexivity]. cbn [bind]. destruct (getn (g64_foc_types g) _) as [t|e]; [|reflexivity]. cbn [bind]. destruct (getn tbl _) as [row|e]; [|reflexivity]. cbn [bind].
  destruct (getn row _) as [c|e]; [|reflexivity]. cbn [bind]. cbv zeta. now rewrite guard_mapM by now apply split_all_parts.
Qed.
Lemma guard_levels g n : forall xs before, parts g xs -> search_levels64 (guard g) n xs before = search_levels64 g n xs before.
Proof.
  induction n as [|n IH]; intros xs before P; [reflexivity|]. cbn [search_levels64]. change (g64_min_points (guard g)) with (g64_min_points g). destruct (existsb _ xs); [reflexivity|].
  rewrite guard_single by exact P. destruct (single_level64 g xs before) as [s|e]; [|reflexivity]. cbn [bind]. now rewrite IH by now apply split_all_parts.
Qed.
Lemma guard_search g : search64 (guard g) = search64 g.
Proof.
  unfold search64. change (g64_type (guard g)) with (g64_type g). change (g64_split_cat (guard g)) with (g64_split_cat g). change (g64_max_levels (guard g)) with (g64_max_levels g). change (g64_foc (guard g)) with (g64_foc g). change (g64_rows (guard g)) with (g64_rows g).
  rewrite (guard_heter g (g64_rows g)) by apply part_refl.
  assert (E : forall h0, search_levels64 (guard g) (g64_max_levels g) [g64_rows g] [h0] = search_levels64 g (g64_max_levels g) [g64_rows g] [h0]) by (intros h0; apply guard_levels; intros x [<-|[]]; apply part_refl).
  destruct (g64_type g), (g64_split_cat g); try reflexivity; (destruct (assert_ _) as [u|e]; [|reflexivity]; cbn [bind]; destruct (g64_heter g (g64_rows g)) as [h0|e]; [|reflexivity]; cbn [bind]; now rewrite E).
Qed.
Lemma guard_subregions g : subregions64 (guard g) = subregions64 g.
Proof. unfold subregions64. rewrite guard_search. destruct (search64 g) as [f|e]; reflexivity. Qed.
