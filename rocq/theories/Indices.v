(** Indices: the attribute [indices] of the global effect objects next to their [data] (global_effect.py:60-66). *)
From Verif Require Import Base Numpy Utils Helpers GlobalALE.
Open Scope list_scope.

(** global_effect.py:60-66  the selection made by GlobalEffectBase.__init__: the attribute and the kept rows. *)
Definition base_select (choice : nat -> nat -> list nat) (nof : pyval) (Z : Mat) : res (list nat * Mat) :=
  '(_, idx) <- prep_nof_instances choice nof (length Z) ;;
  rs <- select_rows Z idx ;; Ok (idx, rs).
(** The classes: ALE (global_effect_ale.py:303-307) and PDP/DerPDP (global_effect_pdp.py:24-34) pass nof_instances
    on; RHALE (global_effect_ale.py:461-470) selects first and passes "all"; ShapDP (global_effect_shap.py:88-95)
    selects first and passes nof_instances on. *)
Inductive effect_class := CALE | CRHALE | CPDP | CDerPDP | CShapDP.
Definition built (k : effect_class) (choice : nat -> nat -> list nat) (nof : pyval) (Z : Mat) : res (list nat * Mat) :=
  match k with
  | CALE | CPDP | CDerPDP => base_select choice nof Z
  | CRHALE => '(_, rs) <- base_select choice nof Z ;; base_select choice (PyStr "all") rs
  | CShapDP => '(_, rs) <- base_select choice nof Z ;; base_select choice nof rs
  end.
(** regional_effect.py:41-45  RegionalEffectBase.__init__ *)
Definition regional_built := base_select.
