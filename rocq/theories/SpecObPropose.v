(** The vocabulary in which the grow proposals of the oblivious tree sampler are described. *)
From Coq Require Import Reals.
From Verif Require Import Base Fl Ext MData MSplit MTree MSampler MHist MTreeHist MOblivious Spec SpecTree SpecPropose.

(** with the draws [ds] the proposal is to grow, and to cut every leaf [j] that can be split at [snd (cut j)] in
    column [fst (cut j)] *)
Definition ob_proposes_cuts (h : heap) (t : tree) (cut : nat -> nat * fl) (ds : list nat) : bool :=
  match ob_grow_mutations h t ds with
  | Ok (ms, h1, _) =>
      forallb (fun m => negb (is_splittable h (mu_existing m)) ||
        match dec_most_recent h1 (mu_updated m) with
        | Some c => Nat.eqb (sc_var c) (fst (cut (mu_existing m))) && feqb (sc_val c) (snd (cut (mu_existing m)))
        | None => false
        end) ms
  | _ => false
  end.
(** one over the number of columns offered, times the share of the rows with value [x] among the rows of the leaf
    whose value in the column is not the largest *)
Definition cut_probability (X : matrix) (h : heap) (j : nat) (vx : nat * fl) : R :=
  match node_split h j with
  | Some s => / INR (length (fst (splittable_variables (d_X (sp_data s))))) *
                (INR (rows_with X s (fst vx) (snd vx)) / INR (rows_below_max X s (fst vx)))
  | None => 0
  end%R.
Definition product (xs : list R) : R := fold_right Rmult 1%R xs.
