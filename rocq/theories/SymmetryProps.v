(** * Property C14: translational symmetries. *)
From Coq Require Import List Bool ZArith.
From Verif Require Import BuilderModel BuilderProofs SymmetryModel SymmetryProofs.
Import ListNotations.
Open Scope Z_scope.

Section C14.
Variable n : nat.                              (* number of periods *)
Variable data : Z -> option famdata.           (* per-family data *)
Hypothesis OK : data_ok n data.
Notation TS r := (TransSymm r OK).             (* r : is_reversed *)

(** Group action of Z^n ([eadd], [eneg], [e0] are componentwise, see C14_elements). *)
Theorem C14_group_action : forall r g g' s,
  act (TS r) (e0 (TS r)) s = s /\
  act (TS r) (eadd (TS r) g g') s = act (TS r) g (act (TS r) g' s).
Proof. exact (fun r g g' s => conj (law_act0 (TransSymm_laws r OK) s) (law_act (TransSymm_laws r OK) g g' s)). Qed.

Theorem C14_elements : forall r g g',
  proj1_sig (e0 (TS r)) = repeat 0 n /\
  proj1_sig (eneg (TS r) g) = map Z.opp (proj1_sig g) /\
  proj1_sig (eadd (TS r) g g') = vadd (proj1_sig g) (proj1_sig g').
Proof. exact (fun r g g' => conj eq_refl (conj eq_refl eq_refl)). Qed.

Theorem C14_which_act : forall r g s,
  which (TS r) (act (TS r) g s) = eadd (TS r) g (which (TS r) s).
Proof. exact (fun r => law_which (TransSymm_laws r OK)). Qed.

(** The action never changes the family, and is free. *)
Theorem C14_family : forall r g s, fst (proj1_sig (act (TS r) g s)) = fst (proj1_sig s).
Proof. exact (fun r g s => eq_refl). Qed.

Theorem C14_free : forall r g s, act (TS r) g s = s -> g = e0 (TS r).
Proof. exact (fun r => act_free (TransSymm_laws r OK)). Qed.

(** Fundamental domain. *)
Theorem C14_in_fd : forall r s, in_fd (TS r) s = true <-> which (TS r) s = e0 (TS r).
Proof. exact (fun r => in_fd_iff (TransSymm_laws r OK)). Qed.

Theorem C14_to_fd_in_fd : forall r s, in_fd (TS r) (to_fd (TS r) s) = true.
Proof. exact (fun r => in_fd_to_fd (TransSymm_laws r OK)). Qed.

Theorem C14_to_fd_fixed : forall r s, in_fd (TS r) s = true -> to_fd (TS r) s = s.
Proof. exact (fun r => to_fd_id (TransSymm_laws r OK)). Qed.

Theorem C14_decompose : forall r s, act (TS r) (which (TS r) s) (to_fd (TS r) s) = s.
Proof. exact (fun r => act_which_to_fd (TransSymm_laws r OK)). Qed.

Theorem C14_orbits : forall r s t,
  to_fd (TS r) s = to_fd (TS r) t <-> exists g, s = act (TS r) g t.
Proof. exact (fun r => to_fd_eq_iff (TransSymm_laws r OK)). Qed.

(** Hoppings: the two-site form moves both sites by the same element, the first
    one into the fundamental domain. *)
Theorem C14_to_fd2 : forall r a b,
  fst (to_fd2 (TS r) a b) = to_fd (TS r) a /\
  exists g, to_fd2 (TS r) a b = (act (TS r) g a, act (TS r) g b).
Proof. exact (fun r a b => conj eq_refl (ex_intro _ _ eq_refl)). Qed.

(** Reversal. *)
Theorem C14_reversed : forall r g s,
  act (TS (negb r)) g s = act (TS r) (eneg (TS r) g) s /\
  proj1_sig (which (TS (negb r)) s) = map Z.opp (proj1_sig (which (TS r) s)) /\
  in_fd (TS (negb r)) s = in_fd (TS r) s /\ to_fd (TS (negb r)) s = to_fd (TS r) s.
Proof. exact (fun r g s => conj (@reversed_act n data OK r g s) (conj (@reversed_which n data OK r s)
               (conj (@reversed_in_fd n data OK r s) (@reversed_to_fd n data OK r s)))). Qed.
End C14.

(** The data computed by add_site_family are good whenever det and
    det_x_inv_m are exact, for either sign of the determinant. *)
Theorem C14_family_data : forall n k m a det,
  (n <= k)%nat -> exact_inverse k m a det -> fam_ok n (family_data n m a det).
Proof. exact family_data_ok. Qed.

Print Assumptions C14_group_action.
Print Assumptions C14_elements.
Print Assumptions C14_which_act.
Print Assumptions C14_family.
Print Assumptions C14_free.
Print Assumptions C14_in_fd.
Print Assumptions C14_to_fd_in_fd.
Print Assumptions C14_to_fd_fixed.
Print Assumptions C14_decompose.
Print Assumptions C14_orbits.
Print Assumptions C14_to_fd2.
Print Assumptions C14_reversed.
Print Assumptions C14_family_data.

(** Non-vacuity: a skew period (2, 1) on a square lattice completed by (-1, 1)
    (determinant 3), and completed by (1, 1) and negative determinant -3 with
    period (-2, 1). *)
Definition ex_m : mat := [[2; -1]; [1; 1]].
Definition ex_inv : mat := [[1; 1]; [-1; 2]].
Example C14_exact_pos : exact_inverse 2 ex_m ex_inv 3.
Proof.
  split; [discriminate|]. do 2 (split; [reflexivity|]).
  split; [intros r [<-|[<-|[]]]; reflexivity|].
  split; [intros r [<-|[<-|[]]]; reflexivity|]. reflexivity.
Qed.
Example C14_exact_neg : exact_inverse 2 [[-2; 1]; [1; 1]] [[1; -1]; [-1; -2]] (-3).
Proof.
  split; [discriminate|]. do 2 (split; [reflexivity|]).
  split; [intros r [<-|[<-|[]]]; reflexivity|].
  split; [intros r [<-|[<-|[]]]; reflexivity|]. reflexivity.
Qed.
Definition ex_data (f : Z) : option famdata :=
  if f =? 0 then Some (family_data 1 ex_m ex_inv 3) else None.
Example C14_data_ok : data_ok 1 ex_data.
Proof.
  intros f d. unfold ex_data. destruct (f =? 0); [|discriminate]. intros [= <-].
  apply (@family_data_ok 1 2); [repeat constructor|apply C14_exact_pos].
Qed.
Definition ex_site (x y : Z) : ts_site ex_data := exist _ (0, [x; y]) eq_refl.
Example C14_which_ex :
  proj1_sig (which (TransSymm false C14_data_ok) (ex_site (-5) 1)) = [-2] /\
  to_fd (TransSymm false C14_data_ok) (ex_site (-5) 1) = ex_site (-1) 3 /\
  to_fd (TransSymm true C14_data_ok) (ex_site (-5) 1) = ex_site (-1) 3.
Proof. split; [reflexivity|]. split; apply sig_eq; reflexivity. Qed.
