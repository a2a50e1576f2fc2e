(** Interaction: model of effector/interaction.py (HIndex and REPID). Of the plots the arrays handed to matplotlib are modelled. *)
From Verif Require Import Base Numpy Utils Helpers GlobalALE GlobalPDP.
Open Scope Qc_scope.
Open Scope list_scope.

(** ** Python calls with keyword arguments: [bind_args s n kw] binds [n] positional arguments and the keywords [kw]
    to the parameters of a function; TypeError for too many arguments, an unknown or duplicate keyword, or a missing
    required parameter. *)
Record signature := mkSig { required : list string; optional : list string }.
Definition mem (k : string) (l : list string) : bool := existsb (String.eqb k) l.
Definition bind_args (s : signature) (npos : nat) (kw : list string) : res unit :=
  let names := required s ++ optional s in
  if Nat.ltb (length names) npos then Raise TypeError
  else if existsb (fun k => negb (mem k (skipn npos names))) kw then Raise TypeError
  else if forallb (fun r => mem r (firstn npos names) || mem r kw) (required s) then Ok tt
  else Raise TypeError.

(** global_effect_pdp.py:496-505 *)
Definition sig_pdp_1d_vectorized :=
  mkSig ["model"; "data"; "x"; "feature"; "heterogeneity"; "model_returns_jac"]%string ["return_all"; "ask_for_derivatives"]%string.
(** global_effect_pdp.py:641-648 *)
Definition sig_pdp_nd_vectorized := mkSig ["model"; "data"; "x"; "features"; "heterogeneity"; "model_returns_jac"]%string [].
(** global_effect_pdp.py:124-132  PDPBase.eval (bound method) *)
Definition sig_pdp_eval := mkSig ["feature"; "xs"]%string ["heterogeneity"; "centering"; "return_all"; "use_vectorized"]%string.

Definition finite (l : list NQ) : res (list Qc) :=
  mapM (fun v => match v with Some q => Ok q | None => Raise NonFinite end) l.
Definition fmean (l : list Qc) : res Qc := match np_mean l with Some q => Ok q | None => Raise NonFinite end.
Definition centre_mean (y : list Qc) : res (list Qc) := c <- fmean y ;; Ok (map (fun v => v - c) y).
(** [np.mean(np.square(a)) / np.mean(np.square(b))]; a zero denominator is NaN or inf in numpy. *)
Definition ratio (a b : list Qc) : res Qc :=
  n <- fmean (map (fun v => v * v) a) ;; d <- fmean (map (fun v => v * v) b) ;;
  if d =? 0 then Raise NonFinite else Ok (n / d).

(** ** HIndex (interaction.py:10-170) *)
(** interaction.py:26-38  the attributes; the entries equal to [empty_symbol] are [None]. *)
Record hobj := mkH { h_data : data; h_model : Mat -> list Qc }.
Record hstate := mkHS { hs_pair : nat -> nat -> option Qc; hs_one : nat -> option Qc;
                        hs_fp : bool (* fitted_interaction_matrix *); hs_fo : bool (* fitted_one_vs_all_matrix *) }.
Definition hfresh : hstate := mkHS (fun _ _ => None) (fun _ => None) false false.
Definition hindex_init (choice : nat -> nat -> list nat) (X : data) (model : Mat -> list Qc) (nof : pyval) : res (hobj * hstate) :=
  '(_, idx) <- prep_nof_instances choice nof (length (rows X)) ;;
  rs <- select_rows (rows X) idx ;;
  Ok (mkH (mkData (dt X) (dim X) rs) model, hfresh).

Section H.
Variable o : hobj.
Notation X := (h_data o).
Notation D := (dim (h_data o)).

(** interaction.py:116-120  _pdp_1d *)
Definition h_pdp_1d (f : nat) (x : list Qc) : res (list Qc) :=
  _ <- bind_args sig_pdp_1d_vectorized 4 ["uncertainty"; "model_returns_jac"]%string ;;
  yy <- pdp_1d_vectorized (CPred (h_model o)) X x f false ;;
  y <- finite (row_means yy) ;; centre_mean y.
(** interaction.py:122-136  _pdp_2d and _pdp_minus_1d: the joint PDP of [fs] at the rows [x] *)
Definition h_pdp_nd (fs : list nat) (x : Mat) : res (list Qc) :=
  _ <- bind_args sig_pdp_nd_vectorized 4 ["uncertainty"; "model_returns_jac"]%string ;;
  yn <- pdp_nd_vectorized (CPred (h_model o)) X x (length fs) fs ;;
  y <- finite yn ;; centre_mean y.

(** interaction.py:72-99  eval_pairwise *)
Definition pairwise_value (f1 f2 : nat) : res Qc :=
  x1 <- getcol X f1 ;; x2 <- getcol X f2 ;;
  p1 <- h_pdp_1d f1 x1 ;; p2 <- h_pdp_1d f2 x2 ;;
  p12 <- h_pdp_nd [f1; f2] (map (fun p => [fst p; snd p]) (combine x1 x2)) ;;
  d <- vzip Qcminus p12 p1 ;; d <- vzip Qcminus d p2 ;;
  ratio d p12.
Definition eval_pairwise (st : hstate) (f1 f2 : nat) : hstate * res Qc :=
  if (Nat.ltb f1 D && Nat.ltb f2 D)%bool then
    match hs_pair st f1 f2 with
    | Some v => (st, Ok v)                                                              (* 84-85 *)
    | None =>
        match pairwise_value f1 f2 with
        | Raise e => (st, Raise e)
        | Ok v => (mkHS (fun a b => if ((Nat.eqb a f1 && Nat.eqb b f2) || (Nat.eqb a f2 && Nat.eqb b f1))%bool
                                    then Some v else hs_pair st a b) (hs_one st) (hs_fp st) (hs_fo st), Ok v)  (* 97-99 *)
        end
    end
  else (st, Raise IndexError).
(** interaction.py:101-114  eval_one_vs_all *)
Definition one_vs_all_value (f : nat) : res Qc :=
  x <- getcol X f ;;
  p1 <- h_pdp_1d f x ;;
  let others := filter (fun i => negb (Nat.eqb i f)) (seq 0 D) in
  pm <- h_pdp_nd others (map (fun r => map (fun i => nth i r 0) others) (rows X)) ;;
  let yy := h_model o (rows X) in
  d <- vzip Qcminus yy pm ;; d <- vzip Qcminus d p1 ;;
  ratio d yy.
Definition eval_one_vs_all (st : hstate) (f : nat) : hstate * res Qc :=
  if Nat.ltb f D then
    match hs_one st f with
    | Some v => (st, Ok v)
    | None => match one_vs_all_value f with
              | Raise e => (st, Raise e)
              | Ok v => (mkHS (hs_pair st) (fun a => if Nat.eqb a f then Some v else hs_one st a) (hs_fp st) (hs_fo st), Ok v)
              end
    end
  else (st, Raise IndexError).

(** interaction.py:40-57  fit *)
Fixpoint pair_loop (st : hstate) (i : nat) (js : list nat) : hstate * res unit :=
  match js with
  | [] => (st, Ok tt)
  | j :: js' => match eval_pairwise st i j with (st', Ok _) => pair_loop st' i js' | (st', Raise e) => (st', Raise e) end
  end.
Fixpoint matrix_loop (st : hstate) (is_ : list nat) : hstate * res unit :=
  match is_ with
  | [] => (st, Ok tt)
  | i :: is' =>
      let st := mkHS (fun a b => if (Nat.eqb a i && Nat.eqb b i)%bool then Some 0 else hs_pair st a b) (hs_one st)
                     (hs_fp st) (hs_fo st) in   (* 45 *)
      match pair_loop st i (seq (i + 1) (D - (i + 1))) with
      | (st', Ok _) => matrix_loop st' is'
      | (st', Raise e) => (st', Raise e)
      end
  end.
Fixpoint one_loop (st : hstate) (is_ : list nat) : hstate * res unit :=
  match is_ with
  | [] => (st, Ok tt)
  | i :: is' => match eval_one_vs_all st i with (st', Ok _) => one_loop st' is' | (st', Raise e) => (st', Raise e) end
  end.
Definition hfit (st : hstate) (pairwise one : bool) : hstate * res unit :=
  match (if pairwise then match matrix_loop st (seq 0 D) with
                          | (st', Ok _) => (mkHS (hs_pair st') (hs_one st') true (hs_fo st'), Ok tt)      (* 48 *)
                          | r => r end else (st, Ok tt)) with
  | (st', Raise e) => (st', Raise e)
  | (st', Ok _) => if one then match one_loop st' (seq 0 D) with
                               | (st', Ok _) => (mkHS (hs_pair st') (hs_one st') (hs_fp st') true, Ok tt)  (* 56 *)
                               | r => r end else (st', Ok tt)
  end.

(** interaction.py:138-157  _plot_interaction_matrix: overwrites the diagonal of the cached matrix with the mean of the
    matrix ([empty_symbol] = 1e10 where nothing was computed) and returns the matrix shown as a heatmap; zero features
    (mean of an empty array) are NonFinite. *)
Definition empty_symbol : Qc := Q2Qc 10000000000.
Definition h_matrix (st : hstate) : Mat :=
  map (fun i => map (fun j => match hs_pair st i j with Some v => v | None => empty_symbol end) (seq 0 D)) (seq 0 D).
Definition h_plot_matrix (st : hstate) : hstate * res Mat :=
  match fmean (concat (h_matrix st)) with
  | Raise e => (st, Raise e)
  | Ok mu => let st := mkHS (fun a b => if (Nat.eqb a b && Nat.ltb a D)%bool then Some mu else hs_pair st a b) (hs_one st) (hs_fp st) (hs_fo st) in
             (st, Ok (h_matrix st))
  end.
(** interaction.py:159-167  _plot_one_vs_all_matrix: the lengths of the bars. *)
Definition h_bars (st : hstate) : list Qc := map (fun i => match hs_one st i with Some v => v | None => empty_symbol end) (seq 0 D).
(** interaction.py:59-70  plot: what is drawn, the heatmap and the bars. *)
Definition hplot (st : hstate) (matrix one : bool) : hstate * res (option Mat * option (list Qc)) :=
  let '(st, r1) := if (negb (hs_fp st) && matrix)%bool then hfit st true false else (st, Ok tt) in        (* 61-62 *)
  match r1 with Raise e => (st, Raise e) | Ok _ =>
  let '(st, r2) := if (negb (hs_fo st) && one)%bool then hfit st false true else (st, Ok tt) in           (* 63-64 *)
  match r2 with Raise e => (st, Raise e) | Ok _ =>
  let '(st, m) := if matrix then (let '(s, r) := h_plot_matrix st in (s, rmap Some r)) else (st, Ok None) in
  match m with Raise e => (st, Raise e) | Ok m => (st, Ok (m, if one then Some (h_bars st) else None)) end end end.

Inductive hcall := HFit (pairwise one : bool) | HPair (f1 f2 : nat) | HOne (f : nat) | HPlot (matrix one : bool).
Definition hstep (st : hstate) (k : hcall) : hstate :=
  match k with
  | HFit p q => fst (hfit st p q) | HPair a b => fst (eval_pairwise st a b) | HOne f => fst (eval_one_vs_all st f)
  | HPlot m b => fst (hplot st m b)
  end.
Definition hrun (st : hstate) (ks : list hcall) : hstate := fold_left hstep ks st.
End H.

(** ** REPID (interaction.py:173-233) *)
(** interaction.py:175-189  __init__. [nof] is the default nof_instances = 300 of PDP (line 203). *)
Record repid := mkRep { q_data : data; q_model : Mat -> list Qc; q_choice : nat -> nat -> list nat; q_rt : Qc -> Qc }.
Definition repid_init (choice : nat -> nat -> list nat) (rt : Qc -> Qc) (X : data) (model : Mat -> list Qc) (nof : pyval) : res repid :=
  '(_, idx) <- prep_nof_instances choice nof (length (rows X)) ;;
  rs <- select_rows (rows X) idx ;;
  Ok (mkRep (mkData (dt X) (dim X) rs) model choice rt).
(** interaction.py:198-216  eval_one_vs_all: lines 202-212 *)
Definition repid_value (o : repid) (f : nat) : res Qc :=
  '(mins, maxs) <- axis_limits_from_data (q_data o) ;;
  '(pc, ps) <- pconstruct (q_choice o) KPDP (q_data o) (q_model o) (PyInt 300) (Some (mins, maxs)) ;;
  let '(ps, r) := pfit pc ps [f] (PyBool false) default_pts true in
  _ <- r ;;
  start <- getn mins f ;; stop <- getn maxs f ;;
  let x := midpoints (linspace start stop 21) in
  _ <- bind_args sig_pdp_eval 0 ["feature"; "xs"; "uncertainty"; "centering"]%string ;;
  out <- snd (peval pc (q_rt o) ps f x true (PyStr "zero_start") false true) ;;
  match out with
  | OMeanStd _ std => s <- finite std ;; fmean s
  | _ => Raise ValueError
  end.
Definition repid_eval (o : repid) (m : nat -> option Qc) (f : nat) : (nat -> option Qc) * res Qc :=
  if Nat.ltb f (dim (q_data o)) then
    match m f with
    | Some v => (m, Ok v)
    | None => match repid_value o f with
              | Raise e => (m, Raise e)
              | Ok v => ((fun a => if Nat.eqb a f then Some v else m a), Ok v)
              end
    end
  else (m, Raise IndexError).
(** interaction.py:191-196  fit; the state is one_vs_all_matrix and fitted_one_vs_all_matrix. *)
Definition qstate := ((nat -> option Qc) * bool)%type.
Definition qfresh : qstate := (fun _ => None, false).
Fixpoint repid_loop (o : repid) (m : nat -> option Qc) (fs : list nat) : (nat -> option Qc) * res unit :=
  match fs with
  | [] => (m, Ok tt)
  | f :: fs' => match repid_eval o m f with (m', Ok _) => repid_loop o m' fs' | (m', Raise e) => (m', Raise e) end
  end.
Definition repid_fit (o : repid) (st : qstate) (fs : list nat) : qstate * res unit :=
  match repid_loop o (fst st) fs with (m, Ok _) => ((m, true), Ok tt) | (m, Raise e) => ((m, snd st), Raise e) end.
(** interaction.py:218-229  plot: the lengths of the bars; [fit] is called with its default "all". *)
Definition repid_plot (o : repid) (st : qstate) : qstate * res (list Qc) :=
  let '(st, r) := if snd st then (st, Ok tt) else repid_fit o st (seq 0 (dim (q_data o))) in
  match r with
  | Raise e => (st, Raise e)
  | Ok _ => (st, Ok (map (fun i => match fst st i with Some v => v | None => empty_symbol end) (seq 0 (dim (q_data o)))))
  end.
Inductive qcall := QFit (fs : list nat) | QOne (f : nat) | QPlot.
Definition qstep (o : repid) (st : qstate) (k : qcall) : qstate :=
  match k with
  | QFit fs => fst (repid_fit o st fs) | QOne f => (fst (repid_eval o (fst st) f), snd st) | QPlot => fst (repid_plot o st)
  end.
Definition qrun (o : repid) (st : qstate) (ks : list qcall) : qstate := fold_left (qstep o) ks st.
