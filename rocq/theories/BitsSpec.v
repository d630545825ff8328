(** Specification for bit fields and systematic alternatives. *)
From Verif Require Import BitsModel.
Open Scope Z_scope.

Definition total (sizes : list nat) : nat := list_sum sizes.
(** Number of bits to the right of field [k]. *)
Definition after (k : nat) (sizes : list nat) : nat := total (skipn (S k) sizes).
(** Fields side by side, the first one leftmost. *)
Fixpoint pack (sizes : list nat) (values : list Z) : Z :=
  match sizes, values with
  | _ :: sizes, v :: values => v * 2 ^ Z.of_nat (total sizes) + pack sizes values
  | _, _ => 0
  end.
(** Every value fits its field. *)
Inductive fits : list nat -> list Z -> Prop :=
| fits_nil : fits [] []
| fits_cons b v sizes values : 0 <= v < 2 ^ Z.of_nat b -> fits sizes values -> fits (b :: sizes) (v :: values).

(** ** Systematic alternatives *)
(** Every row has a category in each groupby column. *)
Definition rows_ok (complete : list (option (list Z))) (rows : list row) : Prop :=
  Forall (fun r => length (r_cats r) = length complete) rows.
(** Bits needed by the codes: room in each column for the categories, one more and the padding, and
    room for the number within case and category. *)
Definition bits_needed (complete : list (option (list Z))) (padding : nat) (rows : list row) : nat :=
  (list_sum (map (fun a => Nat.log2_up (length a + 1 + padding)) (level_lists complete rows))
   + Nat.log2_up (maxn (ordinals rows)))%nat.
(** The same for several frames coded together. *)
Definition frames_bits (complete : list (option (list Z))) (padding : nat) (frames : list (list row)) : nat :=
  (list_sum (map (fun a => Nat.log2_up (length a + 1 + padding)) (level_lists complete (concat frames)))
   + Nat.log2_up (maxn (map (fun f => maxn (ordinals f)) frames)))%nat.
(** Number of earlier rows of the same case and categories, plus one. *)
Definition ordinal (rows : list row) (i : nat) : nat :=
  S (length (filter (same_group (nth i rows (mkRow 0 []))) (firstn i rows))).
(** The largest ordinal is not a power of two (1 included). *)
Definition no_power_of_two (rows : list row) : Prop := forall k, maxn (ordinals rows) <> Nat.pow 2 k.
(** The code with [e] added to field [k] and all fields after it emptied. *)
Definition nest_code (sizes : list nat) (k : nat) (e : nat) (code : Z) : Z :=
  (code / 2 ^ Z.of_nat (after k sizes) + Z.of_nat e) * 2 ^ Z.of_nat (after k sizes).
(** Widths of the fields of a code: one for each groupby column, then the ordinal. *)
Definition field_sizes (complete : list (option (list Z))) (padding : nat) (rows : list row) : list nat :=
  map (fun a => Nat.log2_up (length a + 1 + padding)) (level_lists complete rows)
  ++ [Nat.log2_up (maxn (ordinals rows))].
