(** Property C92: Tree.rename_nodes (partitioning.py:484-502).
    [rename_node fmt scale name] is the new name of a node called [name]; [scale f] is scale["feature_f"] as (mean, std) and
    [fmt] is Python's str of a float. A first-level node of the tree of feature f, split on feature i at the position written
    [pos], is called [first_level f i t even pos]: "x_f | x_i <= pos" (even, continuous), "x_f | x_i  > pos" (odd,
    continuous), "x_f | x_i == pos" and "x_f | x_i != pos" (categorical), see C43. *)
From Verif Require Import Base Numpy Utils Helpers Partition Rename.
From Coq Require Import Ascii DecimalString DecimalNat.
Open Scope Qc_scope.
Open Scope list_scope.

Definition feature_name (i : nat) : string := String.append "x_" (nat_to_string i).
Definition first_level (f i : nat) (t : ftype) (even : bool) (pos : string) : string :=
  String.append (feature_name f) (String.append " | " (label (feature_name i) t even pos)).
(** A non-negative decimal number as Python prints it: digits, a dot, digits. *)
Definition digits (s : string) : Prop := text_of s <> [] /\ Forall (fun c => is_digit c = true) (text_of s).
Definition decimal (ip fp : string) : string := String.append ip (String.append "." fp).
Definition decimal_value (ip fp : string) : Qc := qn (int_of (text_of ip)) + qn (int_of (text_of fp)) / qn (10 ^ length (text_of fp)).

(** ** Text *)
Lemma text_app a b : text_of (String.append a b) = text_of a ++ text_of b.
Proof. unfold text_of. induction a as [|c a IH]; [reflexivity|]. simpl. now rewrite IH. Qed.
Lemma back_text s : string_of_list_ascii (text_of s) = s.
Proof. apply string_of_list_ascii_of_string. Qed.
Lemma digits_uint d : Forall (fun c => is_digit c = true) (text_of (NilEmpty.string_of_uint d)).
Proof. induction d; simpl; constructor; (reflexivity || assumption). Qed.
Definition dig (i : nat) : text := text_of (nat_to_string i).
Lemma dig_digits i : Forall (fun c => is_digit c = true) (dig i).
Proof. apply digits_uint. Qed.
Lemma dig_int i : int_of (dig i) = i.
Proof. unfold int_of, dig. rewrite back_text. unfold nat_to_string. rewrite NilEmpty.usu. apply Unsigned.of_to. Qed.
Lemma dig_nonnil i : dig i <> [].
Proof.
  intros H. pose proof (dig_int i) as E. rewrite H in E. cbn in E. subst i. discriminate.
Qed.
Lemma span_app p a b : Forall (fun c => p c = true) a -> match b with [] => True | c :: _ => p c = false end -> span p (a ++ b) = (a, b).
Proof.
  induction a as [|c a IH]; intros H Hb; simpl.
  - destruct b as [|c b]; [reflexivity|]. simpl. now rewrite Hb.
  - inversion H as [|? ? Hc Ha]; subst. rewrite Hc, (IH Ha Hb). reflexivity.
Qed.
Lemma strip_some old : forall s r, strip old s = Some r -> s = old ++ r.
Proof.
  induction old as [|a old IH]; intros s r H; simpl in H.
  - now injection H as ->.
  - destruct s as [|c s]; [discriminate|]. destruct (Ascii.eqb_spec a c); [|discriminate]. subst. simpl. f_equal. now apply IH.
Qed.
Lemma strip_app old r : strip old (old ++ r) = Some r.
Proof. induction old as [|a old IH]; [reflexivity|]. simpl. now rewrite Ascii.eqb_refl. Qed.

(** ** Matching *)
Lemma match_feature i r : match_here (text_of "x_" ++ dig i ++ " "%char :: r) =
  match match_op ops r with Some (num, rest) => Some (dig i, num, rest) | None => None end.
Proof.
  unfold match_here. rewrite strip_app. rewrite (span_app is_digit (dig i) (" "%char :: r)) by (exact (dig_digits i) || reflexivity).
  pose proof (dig_nonnil i). destruct (dig i); [congruence|reflexivity].
Qed.
Lemma skip_here c s : c <> "x"%char -> match_here (c :: s) = None.
Proof. intros H. unfold match_here. cbn [text_of list_ascii_of_string strip]. destruct (Ascii.eqb_spec "x" c); [congruence|reflexivity]. Qed.
Lemma skip_iter p : Forall (fun c => c <> "x"%char) p -> forall n s, finditer (length p + n) (p ++ s) = finditer n s.
Proof.
  induction p as [|c p IH]; intros H n s; [reflexivity|]. inversion H; subst. simpl. rewrite skip_here by assumption. now apply IH.
Qed.
Lemma iter_nil n : finditer n [] = []. Proof. destruct n; reflexivity. Qed.
Lemma digit_not c d : is_digit d = false -> is_digit c = true -> c <> d.
Proof. intros H H' ->. congruence. Qed.
Lemma dig_no c i : is_digit c = false -> Forall (fun d => d <> c) (dig i).
Proof. intros H. eapply Forall_impl; [|apply dig_digits]. intros d Hd. now apply digit_not. Qed.

Definition symbol (t : ftype) (even : bool) : text :=
  text_of (match t, even with Cat, true => "== " | Cont, true => "<= " | Cat, false => "!= " | Cont, false => " > " end).
Lemma name_text f i t even pos : text_of (first_level f i t even pos) =
  text_of "x_" ++ dig f ++ " "%char :: text_of "| " ++ text_of "x_" ++ dig i ++ " "%char :: symbol t even ++ text_of pos.
Proof.
  unfold first_level, label, feature_name. rewrite !text_app. change (text_of (nat_to_string f)) with (dig f). change (text_of (nat_to_string i)) with (dig i).
  rewrite <- !app_assoc. destruct t, even; reflexivity.
Qed.
Lemma iter_name f i t even pos n : (length (text_of (first_level f i t even pos)) <= n)%nat -> exists m, (length (text_of pos) <= m)%nat /\
  finditer n (text_of (first_level f i t even pos)) = finditer (S m) (text_of "x_" ++ dig i ++ " "%char :: symbol t even ++ text_of pos).
Proof.
  rewrite name_text. set (r := text_of "x_" ++ dig i ++ _). intros L. assert (LL : (length (dig f) + length r + 5 <= n)%nat).
  { change (text_of "x_" ++ dig f ++ " "%char :: text_of "| " ++ r) with ("x"%char :: "_"%char :: dig f ++ " "%char :: "|"%char :: " "%char :: r) in L. cbn [length] in L. rewrite app_length in L. cbn [length] in L. lia. }
  clear L. rename LL into L.
  assert (LR : (S (length (text_of pos)) <= length r)%nat) by (subst r; rewrite !app_length; cbn [length]; rewrite app_length; lia).
  destruct n as [|n]; [lia|]. change (text_of "x_" ++ dig f ++ " "%char :: text_of "| " ++ r) with ("x"%char :: "_"%char :: dig f ++ " "%char :: "|"%char :: " "%char :: r).
  pose proof (match_feature f ("|"%char :: " "%char :: r)) as M. change (match_op ops ("|"%char :: " "%char :: r)) with (@None (text * text)) in M.
  change (text_of "x_" ++ dig f ++ " "%char :: "|"%char :: " "%char :: r) with ("x"%char :: "_"%char :: dig f ++ " "%char :: "|"%char :: " "%char :: r) in M.
  replace (finditer (S n) _) with (finditer n ("_"%char :: dig f ++ " "%char :: "|"%char :: " "%char :: r)) by (cbn [finditer]; now rewrite M).
  set (p := "_"%char :: dig f ++ [" "%char; "|"%char; " "%char]). replace ("_"%char :: dig f ++ " "%char :: "|"%char :: " "%char :: r) with (p ++ r) by (subst p; simpl; rewrite <- app_assoc; reflexivity).
  assert (LP : length p = (4 + length (dig f))%nat) by (subst p; simpl; rewrite app_length; simpl; lia).
  exists (n - length p - 1)%nat. split; [lia|]. replace (S (n - length p - 1)) with (n - length p)%nat by lia.
  replace n with (length p + (n - length p))%nat at 1 by lia. apply skip_iter.
  subst p. constructor; [discriminate|]. apply Forall_app. split; [now apply dig_no|]. repeat constructor; discriminate.
Qed.

(** ** Replacing *)
Lemma dot_unique (u v u' v' : text) : Forall (fun c => c <> "."%char) u -> Forall (fun c => c <> "."%char) u' ->
  u ++ "."%char :: v = u' ++ "."%char :: v' -> u = u'.
Proof.
  revert u'. induction u as [|a u IH]; intros [|b u'] H H' E; simpl in E; try reflexivity.
  - injection E as E _. inversion H'; subst. congruence.
  - injection E as E _. inversion H; subst. congruence.
  - injection E as -> E. inversion H; inversion H'; subst. f_equal. eauto.
Qed.
Lemma replace_last pre a b new : Forall (fun c => c <> "."%char) pre -> Forall (fun c => c <> "."%char) a -> forall n, (length pre < n)%nat ->
  replace n (a ++ "."%char :: b) new (pre ++ a ++ "."%char :: b) = pre ++ new.
Proof.
  intros Hp Ha. induction pre as [|c pre IH]; intros n L; (destruct n as [|n]; [simpl in L; lia|]).
  - cbn [app]. set (num := a ++ "."%char :: b). destruct num as [|d num'] eqn:E; [destruct a; discriminate|]. cbn [replace]. rewrite <- E.
    replace (strip num num) with (Some (@nil ascii)) by (symmetry; rewrite <- (app_nil_r num) at 2; apply strip_app). replace (replace n num new []) with (@nil ascii) by (destruct n; reflexivity). apply app_nil_r.
  - cbn [app replace]. destruct (strip (a ++ "."%char :: b) _) eqn:E.
    + exfalso. apply strip_some in E. rewrite <- app_assoc in E. cbn [app] in E.
      replace (c :: pre ++ a ++ "."%char :: b) with ((c :: pre ++ a) ++ "."%char :: b) in E by (simpl; now rewrite <- app_assoc).
      apply dot_unique in E; [|inversion Hp; subst; constructor; [assumption|now apply Forall_app]|exact Ha]. apply (f_equal (@length _)) in E. simpl in E. rewrite app_length in E. lia.
    + f_equal. inversion Hp; subst. apply IH; [assumption|]. simpl in L. lia.
Qed.

(** ** The property *)
(** First-level nodes: "<=", "==" and "!=" conditions with a non-negative threshold are shown in original units. *)
Theorem C92_first_level_partial : forall fmt scale f i t even ip fp mean std, (t = Cont -> even = true) ->
  digits ip -> digits fp -> scale i = Some (mean, std) ->
  rename_node fmt scale (first_level f i t even (decimal ip fp)) = Ok (first_level f i t even (fmt (std * decimal_value ip fp + mean))).
Proof.
  intros fmt scale f i t even ip fp mean std Ht [Hi0 Hi] [Hf0 Hf] Hs. unfold rename_node.
  set (name := first_level f i t even (decimal ip fp)). destruct (iter_name f i t even (decimal ip fp) (length (text_of name)) ltac:(reflexivity)) as (m & Lm & E). fold name in E. rewrite E.
  assert (TD : text_of (decimal ip fp) = text_of ip ++ "."%char :: text_of fp) by (unfold decimal; now rewrite !text_app).
  assert (ND : Forall (fun c => is_num c = true) (text_of (decimal ip fp))).
  { rewrite TD. apply Forall_app. split; [|constructor; [reflexivity|]]; (eapply Forall_impl; [|eassumption]); intros c Hc; unfold is_num; now rewrite Hc. }
  assert (M : match_here (text_of "x_" ++ dig i ++ " "%char :: symbol t even ++ text_of (decimal ip fp)) = Some (dig i, text_of (decimal ip fp), [])).
  { rewrite match_feature. pose proof (span_app is_num (text_of (decimal ip fp)) [] ND I) as SP. rewrite app_nil_r in SP.
    assert (NE : text_of (decimal ip fp) <> []) by (rewrite TD; destruct (text_of ip); discriminate).
    clear - SP NE Ht. generalize dependent (text_of (decimal ip fp)). intros T SP NE. destruct T as [|c T]; [congruence|].
    destruct t, even; try (specialize (Ht eq_refl); discriminate); cbn [symbol text_of list_ascii_of_string app];
      cbn [match_op ops map text_of list_ascii_of_string app strip Ascii.eqb Bool.eqb]; rewrite SP; reflexivity. }
  assert (F1 : forall s, text_of "x_" ++ s = "x"%char :: "_"%char :: s) by reflexivity.
  rewrite F1 in *. cbn [finditer]. rewrite M. rewrite iter_nil. cbn [foldM fst snd]. rewrite dig_int, Hs.
  assert (FV : float_of (text_of (decimal ip fp)) = Ok (decimal_value ip fp)).
  { unfold float_of. rewrite TD, (span_app is_digit (text_of ip) ("."%char :: text_of fp)) by (exact Hi || reflexivity).
    replace (forallb is_digit (text_of fp)) with true by (symmetry; apply forallb_forall; intros c Hc; rewrite Forall_forall in Hf; now apply Hf).
    replace (Nat.eqb (length (text_of ip) + length (text_of fp)) 0) with false by (symmetry; apply Nat.eqb_neq; destruct (text_of ip); [congruence|simpl; lia]). reflexivity. }
  rewrite FV. cbn [bind]. unfold name at 1 2. rewrite name_text.
  set (pre := text_of "x_" ++ dig f ++ " "%char :: text_of "| " ++ text_of "x_" ++ dig i ++ " "%char :: symbol t even).
  assert (EP : forall s, text_of "x_" ++ dig f ++ " "%char :: text_of "| " ++ text_of "x_" ++ dig i ++ " "%char :: symbol t even ++ s = pre ++ s) by (intros s; subst pre; repeat first [rewrite <- app_assoc | progress (cbn [app])]; reflexivity).
  rewrite EP, TD. rewrite replace_last.
  - f_equal. rewrite <- (back_text (first_level f i t even (fmt _))), name_text, EP. reflexivity.
  - subst pre. apply Forall_app. split; [repeat constructor; discriminate|]. apply Forall_app. split; [now apply dig_no|]. constructor; [discriminate|].
    apply Forall_app. split; [repeat constructor; discriminate|]. apply Forall_app. split; [repeat constructor; discriminate|]. apply Forall_app. split; [now apply dig_no|]. constructor; [discriminate|].
    destruct t, even; repeat constructor; discriminate.
  - eapply Forall_impl; [|exact Hi]. intros c Hc. now apply digit_not.
  - rewrite app_length. rewrite app_length. simpl. lia.
Qed.
Print Assumptions C92_first_level_partial.

(** Every ">" condition (written with two blanks before the sign) is left in the scaled units, whatever its threshold. *)
Theorem C92_greater_refuted : forall fmt scale f i pos, Forall (fun c => c <> "x"%char) (text_of pos) ->
  rename_node fmt scale (first_level f i Cont false pos) = Ok (first_level f i Cont false pos).
Proof.
  intros fmt scale f i pos Hx. unfold rename_node. set (name := first_level f i Cont false pos).
  destruct (iter_name f i Cont false pos (length (text_of name)) ltac:(reflexivity)) as (m & Lm & E). fold name in E. rewrite E.
  assert (F1 : forall s, text_of "x_" ++ s = "x"%char :: "_"%char :: s) by reflexivity. pose proof (match_feature i (symbol Cont false ++ text_of pos)) as M.
  cbn [symbol text_of list_ascii_of_string app match_op ops map strip Ascii.eqb Bool.eqb] in M.
  rewrite F1 in *. cbn [finditer]. cbn [symbol text_of list_ascii_of_string app] in *. rewrite M.
  set (p := "_"%char :: dig i ++ " "%char :: " "%char :: ">"%char :: " "%char :: list_ascii_of_string pos).
  assert (HP : Forall (fun c => c <> "x"%char) p).
  { subst p. constructor; [discriminate|]. apply Forall_app. split; [now apply dig_no|]. repeat (constructor; [discriminate|]). exact Hx. }
  assert (G : forall p n, Forall (fun c => c <> "x"%char) p -> finditer n p = []).
  { clear. induction p as [|c p IH]; intros n H; [apply iter_nil|]. destruct n as [|n]; [reflexivity|]. inversion H; subst. cbn [finditer]. rewrite skip_here by assumption. now apply IH. }
  rewrite G by exact HP. cbn [foldM bind]. now rewrite back_text.
Qed.
Print Assumptions C92_greater_refuted.
(** A negative threshold is left in the scaled units too. *)
Theorem C92_negative_refuted : forall fmt scale f i t even pos, Forall (fun c => c <> "x"%char) (text_of pos) ->
  let name := first_level f i t even (String.append "-" pos) in rename_node fmt scale name = Ok name.
Proof.
  intros fmt scale f i t even pos Hx name. unfold rename_node.
  destruct (iter_name f i t even (String.append "-" pos) (length (text_of name)) ltac:(reflexivity)) as (m & Lm & E). fold name in E. rewrite E.
  assert (F1 : forall s, text_of "x_" ++ s = "x"%char :: "_"%char :: s) by reflexivity. pose proof (match_feature i (symbol t even ++ text_of (String.append "-" pos))) as M.
  assert (M0 : match_op ops (symbol t even ++ text_of (String.append "-" pos)) = None) by (rewrite text_app; destruct t, even; reflexivity). rewrite M0 in M.
  rewrite F1 in *. cbn [finditer]. rewrite M.
  assert (HP : Forall (fun c => c <> "x"%char) ("_"%char :: dig i ++ " "%char :: symbol t even ++ text_of (String.append "-" pos))).
  { constructor; [discriminate|]. apply Forall_app. split; [now apply dig_no|]. constructor; [discriminate|]. apply Forall_app. split; [destruct t, even; repeat constructor; discriminate|]. rewrite text_app. constructor; [discriminate|exact Hx]. }
  assert (G : forall p n, Forall (fun c => c <> "x"%char) p -> finditer n p = []).
  { clear. induction p as [|c p IH]; intros n H; [apply iter_nil|]. destruct n as [|n]; [reflexivity|]. inversion H; subst. cbn [finditer]. rewrite skip_here by assumption. now apply IH. }
  rewrite G by exact HP. cbn [foldM bind]. now rewrite back_text.
Qed.
Print Assumptions C92_negative_refuted.
(** Two conditions with the same printed threshold: the second one is shown in the units of the first feature. Here feature 1
    has mean 3/2 and std 2, feature 2 mean 3 and std 1: the threshold 1.0 is 3.5 of feature 1 and 4.0 of feature 2. *)
Definition ex92_fmt (q : Qc) : string := if q =? Q2Qc (7 # 2) then "3.5" else if q =? Q2Qc 4 then "4.0" else "?".
Definition ex92_scale (f : nat) : option (Qc * Qc) :=
  match f with 1%nat => Some (Q2Qc (3 # 2), Q2Qc 2) | 2%nat => Some (Q2Qc 3, Q2Qc 1) | _ => None end.
Theorem C92_second_level_refuted :
  rename_node ex92_fmt ex92_scale "x_0 | x_1 <= 1.0 and x_2 <= 1.0" = Ok "x_0 | x_1 <= 3.5 and x_2 <= 3.5"%string.
Proof. vm_compute. reflexivity. Qed.
Print Assumptions C92_second_level_refuted.

(** rename_nodes changes nothing but the names: when it succeeds every node keeps its place, parent, level, data and split,
    and gets the name computed from its old one; when it raises, the nodes before the offending one are already renamed. *)
Definition same_but_name (a b : node) : Prop :=
  n_idx a = n_idx b /\ n_parent a = n_parent b /\ n_level a = n_level b /\ n_heter a = n_heter b /\ n_weight a = n_weight b /\
  n_nof a = n_nof b /\ n_data a = n_data b /\ n_effect a = n_effect b /\ n_split a = n_split b.
Theorem C92_only_names : forall fmt scale t,
  let '(t', r) := rename_nodes fmt scale t in
  Forall2 same_but_name t t' /\
  (r = Ok tt -> Forall2 (fun a b => rename_node fmt scale (n_name a) = Ok (n_name b)) t t') /\
  (forall e, r = Raise e -> exists pre n post pre', t = pre ++ n :: post /\ t' = pre' ++ n :: post /\
     rename_node fmt scale (n_name n) = Raise e /\ Forall2 (fun a b => rename_node fmt scale (n_name a) = Ok (n_name b)) pre pre').
Proof.
  intros fmt scale t. assert (SR : forall a, same_but_name a a) by (intros a; repeat split).
  induction t as [|a t IH]; cbn [rename_nodes].
  - split; [constructor|]. split; [constructor|discriminate].
  - destruct (rename_node fmt scale (n_name a)) as [nm|e] eqn:E.
    + destruct (rename_nodes fmt scale t) as [t' r]. destruct IH as (I1 & I2 & I3). split; [constructor; [repeat split|exact I1]|]. split.
      * intros Hr. constructor; [exact E|now apply I2].
      * intros e He. destruct (I3 e He) as (pre & n & post & pre' & -> & -> & I4 & I5). exists (a :: pre), n, post, (set_name a nm :: pre'). split; [reflexivity|]. split; [reflexivity|]. split; [exact I4|]. now constructor.
    + split; [|split; [discriminate|]].
      * constructor; [apply SR|]. clear -SR. induction t; constructor; auto.
      * intros e' He. injection He as <-. exists [], a, t, []. repeat split; [exact E|constructor].
Qed.
Print Assumptions C92_only_names.

Example C92_instance : digits "12" /\ digits "50" /\ decimal_value "12" "50" = Q2Qc (25 # 2) /\ decimal "12" "50" = "12.50"%string /\
  first_level 0 2 Cont true (decimal "12" "50") = "x_0 | x_2 <= 12.50"%string /\
  rename_node ex92_fmt ex92_scale "x_0 | x_2 <= 1.00" = Ok "x_0 | x_2 <= 4.0"%string /\
  rename_node ex92_fmt ex92_scale "x_0 | x_2  > 1.00" = Ok "x_0 | x_2  > 1.00"%string /\
  rename_node ex92_fmt ex92_scale "x_0 | x_2 <= -1.00" = Ok "x_0 | x_2 <= -1.00"%string /\
  rename_node ex92_fmt ex92_scale "x_0 | x_5 == 1.00" = Raise KeyError.
Proof.
  split; [split; [discriminate|repeat constructor]|]. split; [split; [discriminate|repeat constructor]|]. split; [apply Qc_is_canon; vm_compute; reflexivity|]. repeat split; vm_compute; reflexivity.
Qed.
