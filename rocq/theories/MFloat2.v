(** Double precision versions of the sums: np.sum, np.mean, the running prediction and the point prediction. *)
From Coq Require Import ZArith List Permutation.
From Flocq Require Import Core.Core IEEE754.BinarySingleNaN.
From Verif Require Import Base MFloat.
Import ListNotations.

(** np.sum (model.py:59, model.py:65, data.py:272) adds the numbers in an order that depends on the shape and
    the memory layout of the array (one after the other, or pairwise in blocks).  [sums l s]: adding the
    numbers of [l] two at a time in some order can give [s].  np.sum of nothing is 0.0. *)
Inductive sums : list b64 -> b64 -> Prop :=
| sums_none : sums [] (B754_zero false)
| sums_one x : sums [x] x
| sums_add l1 l2 l s1 s2 : l1 <> [] -> l2 <> [] -> sums l1 s1 -> sums l2 s2 -> Permutation (l1 ++ l2) l ->
    sums l (fadd s1 s2).

(** np.mean: the sum divided by the number of entries; [c] is that number as a double *)
Definition means (l : list b64) (c m : b64) : Prop := exists s, sums l s /\ m = fdiv s c.

(** model.py:71-76 for one row of the data: [_prediction -= tree.predict()], then [+= tree.predict()] after the
    tree was replaced; [vs] are the predictions of the trees for that row *)
Definition set_at (j : nat) (x : b64) (vs : list b64) : list b64 := firstn j vs ++ x :: skipn (S j) vs.
Definition refresh_f (st : b64 * list b64) (op : nat * b64) : b64 * list b64 :=
  let (p, vs) := st in
  let (j, new) := op in
  (fadd (fsub p (nth j vs (B754_zero false))) new, set_at j new vs).
Definition refreshes_f (st : b64 * list b64) (ops : list (nat * b64)) : b64 * list b64 :=
  fold_left refresh_f ops st.
(** model.py:73: the target handed to tree [j] for that row, [data.y.values - _prediction] *)
Definition handed_f (y : b64) (st : b64 * list b64) (j : nat) : b64 :=
  fsub y (fsub (fst st) (nth j (snd st) (B754_zero false))).

(** sklearnmodel.py:290-291 (and 226) for one row: the mean over the samples of the sum over the trees,
    mapped back.  [leaves] has one list per sample: what its trees predict for the row. *)
Definition predicts_f (lo hi c : b64) (leaves : list (list b64)) (r : b64) : Prop :=
  exists ps m, Forall2 sums leaves ps /\ means ps c m /\ unnormalize_f lo hi [m] = [r].

(** data.py:223 _inverse_mask_int and data.py:272 np.sum(_y * _inverse_mask_int): excluded rows are multiplied
    by 0, the others by 1 *)
Definition fone : b64 := @B754_finite 53 1024 false 4503599627370496 (-52) eq_refl.
Definition masked_f (y : list b64) (mask : list bool) : list b64 :=
  map (fun vm : b64 * bool => fmul (fst vm) (if snd vm then B754_zero false else fone)) (combine y mask).
Definition summed_f (y : list b64) (mask : list bool) (s : b64) : Prop := sums (masked_f y mask) s.
