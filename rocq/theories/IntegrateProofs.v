(** IntegrateProofs: the midpoint rule of utils_integrate.py. *)
From Verif Require Import Base Numpy Spec NumpyFacts Utils UtilsProofs Helpers Integrate HelpersProofs.
Open Scope Qc_scope.
Open Scope list_scope.

(** The midpoint of cell [k] of [m] equal cells of [a, b]. *)
Definition cell_mid (a b : Qc) (m k : nat) : Qc := a + (qn k + Q2Qc (1#2)) * ((b - a) / qn m).
Lemma midpoints_cells a b n : (2 <= n)%nat -> midpoints (linspace a b n) = map (cell_mid a b (n - 1)) (seq 0 (n - 1)).
Proof.
  intros Hn. apply list_ext with 0; rewrite midpoints_length, linspace_length; [now rewrite map_length, seq_length|].
  intros k Hk. rewrite midpoints_linspace_nth by lia. rewrite nth_map_in with (d := 0%nat) by now rewrite seq_length. rewrite nth_seq by assumption. unfold cell_mid. simpl plus.
  set (w := (b - a) / qn (n - 1)). clearbody w. replace 1 with (Q2Qc (1#2) + Q2Qc (1#2)) by (apply Qc_is_canon; reflexivity). set (h := Q2Qc (1#2)). 
  assert (HH : h + h = 1) by (apply Qc_is_canon; reflexivity). clearbody h. f_equal.
  replace (h * ((qn k + qn k + (h + h)) * w)) with ((h + h) * (qn k * w) + (h + h) * (h * w)) by ring. rewrite HH. ring.
Qed.
(** [F] is a primitive of [g] on [a, b]: bounds of g bound the increments of F. *)
Definition primitive (g F : Qc -> Qc) (a b : Qc) : Prop :=
  forall x y lo hi, a <= x -> x <= y -> y <= b -> (forall t, x <= t <= y -> lo <= g t <= hi) -> lo * (y - x) <= F y - F x <= hi * (y - x).
Lemma half_double (q : Qc) : q = Q2Qc (1#2) * q + Q2Qc (1#2) * q.
Proof. rewrite <- Qcmult_plus_distr_l. replace (Q2Qc (1#2) + Q2Qc (1#2)) with 1 by (apply Qc_is_canon; reflexivity). ring. Qed.
Lemma midpoint_error g F a b n L : (2 <= n)%nat -> a < b -> 0 <= L -> (forall x y, a <= x -> x <= y -> y <= b -> - (L * (y - x)) <= g y - g x <= L * (y - x)) ->
  primitive g F a b -> let e := L * (b - a) / (Q2Qc 2 * qn (n - 1)) in
  - e <= mean (map g (midpoints (linspace a b n))) - (F b - F a) / (b - a) <= e.
Proof.
  intros Hn Hab HL Lip P e. set (m := (n - 1)%nat) in *. assert (Pm : 0 < qn m) by (apply qn_pos; unfold m; lia).
  assert (Nm : qn m <> 0) by (intros E; rewrite E in Pm; discriminate Pm).
  set (w := (b - a) / qn m). assert (Pw : 0 < w). { unfold w, Qcdiv. apply Qcmult_lt_0; [|now apply Qcinv_pos]. qlra. }
  assert (Ew : qn m * w = b - a) by (unfold w; field; exact Nm).
  set (X := fun k => a + qn k * w).
  assert (X0 : X 0%nat = a) by (unfold X; change (qn 0) with 0; ring). assert (Xm : X m = b) by (unfold X; rewrite Ew; ring).
  assert (XS : forall k, X (S k) = X k + w) by (intros k; unfold X; rewrite qn_S; ring).
  assert (XB : forall k, (k <= m)%nat -> a <= X k <= b).
  { intros k Hk. unfold X. assert (0 <= qn k * w) by (apply Qcmult_le_0; [apply qn_nonneg|qlra]). assert (qn k * w <= qn m * w) by (apply Qcmul_le_compat_r; [qlra|apply qn_le; lia]). split; qlra. }
  set (h := Q2Qc (1#2) * w). assert (Eh : w = h + h) by apply half_double. assert (Ph : 0 < h) by (unfold h; apply Qcmult_lt_0; [reflexivity|exact Pw]).
  assert (CM : forall k, cell_mid a b m k = X k + h) by (intros k; unfold cell_mid, X, h; fold w; ring).
  (* one cell *)
  assert (C : forall k, (k < m)%nat -> (g (cell_mid a b m k) - L * h) * w <= F (X (S k)) - F (X k) <= (g (cell_mid a b m k) + L * h) * w).
  { intros k Hk. pose proof (XB k ltac:(lia)) as [B1 B2]. pose proof (XB (S k) ltac:(lia)) as [B3 B4]. pose proof (XS k) as ES.
    cut ((g (cell_mid a b m k) - L * h) * (X (S k) - X k) <= F (X (S k)) - F (X k) <= (g (cell_mid a b m k) + L * h) * (X (S k) - X k)); [replace (X (S k) - X k) with w by (rewrite ES; ring); auto|].
    apply P; [exact B1|rewrite ES; qlra|exact B4|]. intros t [T1 T2]. rewrite CM. set (c := X k + h) in *.
    assert (Hc : a <= c <= b) by (unfold c; split; qlra).
    assert (M : forall d, 0 <= d -> d <= h -> L * d <= L * h) by (intros d D1 D2; apply Qcmul_le_compat_l; assumption).
    destruct (Qclt_le_dec t c) as [T|T].
    - destruct (Lip t c ltac:(qlra) ltac:(qlra) ltac:(qlra)) as [A1 A2]. specialize (M (c - t) ltac:(qlra) ltac:(unfold c in *; qlra)). split; qlra.
    - destruct (Lip c t ltac:(qlra) ltac:(qlra) ltac:(qlra)) as [A1 A2]. specialize (M (t - c) ltac:(qlra) ltac:(unfold c in *; qlra)). split; qlra. }
  set (G := sumq (map (fun k => g (cell_mid a b m k)) (seq 0 m))).
  assert (TS : sumq (map (fun k => F (X (S k)) - F (X k)) (seq 0 m)) = F b - F a).
  { replace (F b - F a) with (F (X m) - F (X 0%nat)) by now rewrite Xm, X0. clearbody X. clear. induction m as [|k IH]; [simpl; ring|]. rewrite seq_S, map_app, sumq_app, IH. simpl. ring. }
  assert (LO : G * w - qn m * (L * h * w) <= F b - F a).
  { rewrite <- TS. replace (G * w - qn m * (L * h * w)) with (sumq (map (fun k => (g (cell_mid a b m k) - L * h) * w) (seq 0 m))).
    - apply sumq_le. intros k Hk. apply in_seq in Hk. apply C. lia.
    - rewrite sumq_map_mulr, sumq_map_sub, sumq_const, seq_length. fold G. ring. }
  assert (HI : F b - F a <= G * w + qn m * (L * h * w)).
  { rewrite <- TS. replace (G * w + qn m * (L * h * w)) with (sumq (map (fun k => (g (cell_mid a b m k) + L * h) * w) (seq 0 m))).
    - apply sumq_le. intros k Hk. apply in_seq in Hk. apply C. lia.
    - rewrite sumq_map_mulr, sumq_map_add, sumq_const, seq_length. fold G. ring. }
  assert (EM : mean (map g (midpoints (linspace a b n))) = G * w * / (b - a)).
  { rewrite midpoints_cells by assumption. fold m. rewrite map_map. unfold mean. rewrite map_length, seq_length. fold G. unfold w. field. split; [|exact Nm]. intros E. qlra. }
  assert (Ee : e = L * h). { unfold e, h, w. replace (Q2Qc (1#2)) with (/ Q2Qc 2) by (apply Qc_is_canon; reflexivity). field. split; [exact Nm|discriminate]. }
  assert (PI : 0 < / (b - a)) by (apply Qcinv_pos; qlra).
  assert (IB : (b - a) * / (b - a) = 1) by (field; intros E; qlra).
  assert (EL : e = qn m * (L * h * w) * / (b - a)). { rewrite Ee. replace (qn m * (L * h * w)) with (L * h * (qn m * w)) by ring. rewrite Ew. replace (L * h * (b - a) * / (b - a)) with (L * h * ((b - a) * / (b - a))) by ring. rewrite IB. ring. }
  rewrite EM, EL. unfold Qcdiv.
  assert (A1 : (G * w - qn m * (L * h * w)) * / (b - a) <= (F b - F a) * / (b - a)) by (apply Qcmul_le_compat_r; [qlra|exact LO]).
  assert (A2 : (F b - F a) * / (b - a) <= (G * w + qn m * (L * h * w)) * / (b - a)) by (apply Qcmul_le_compat_r; [qlra|exact HI]).
  replace ((G * w - qn m * (L * h * w)) * / (b - a)) with (G * w * / (b - a) - qn m * (L * h * w) * / (b - a)) in A1 by ring.
  replace ((G * w + qn m * (L * h * w)) * / (b - a)) with (G * w * / (b - a) + qn m * (L * h * w) * / (b - a)) in A2 by ring.
  set (p := G * w * / (b - a)) in *. set (q := qn m * (L * h * w) * / (b - a)) in *. set (r := (F b - F a) * / (b - a)) in *. clearbody p q r. split; qlra.
Qed.
