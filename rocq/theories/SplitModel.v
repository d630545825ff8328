(** Model of DataFrames.split, larch/dataframes.pyx 3056-3154. Arithmetic is exact. *)
From Verif Require Export WtModel.
Open Scope R_scope.

(** Lines 3083-3091: [splits/splits.sum()], then cumsum; [None] is the ValueError for fewer than two. *)
Fixpoint cumsum (a : R) (l : list R) : list R :=
  match l with [] => [] | x :: l => (a + x) :: cumsum (a + x) l end.
(** Lines 3086-3091. *)
Definition cum_splits (splits : list R) : list R := cumsum 0 (map (fun x => x / sum splits) splits).
(** An int gives that many equal shares, 3077-3079. *)
Definition equal_splits (n : nat) : list R := repeat (1 / INR n) n.
(** Line 3092; 'shuffle' permutes it (3094-3095). *)
Definition uniform_seq (n : nat) : list R := map (fun i => INR i / INR n) (seq 0 n).
(** Lines 3097-3098, one row: [u < cum], then each column xor the column before it (as it was). *)
Fixpoint xor_prev (p : bool) (l : list bool) : list bool :=
  match l with [] => [] | x :: l => xorb x p :: xor_prev x l end.
(** Lines 3097-3098: one row of [membership]. *)
Definition member_row (splits : list R) (u : R) : list bool :=
  xor_prev false (map (Rltb u) (cum_splits splits)).
(** Lines 3097-3098. *)
Definition membership (splits : list R) (useq : list R) : list (list bool) := map (member_row splits) useq.
(** Line 3108: the cases of part [s]. *)
Definition these_positions (splits : list R) (useq : list R) (s : nat) : list bool :=
  map (fun m => nth s m false) (membership splits useq).
(** Boolean iloc, lines 3109, 3123-3125. *)
Fixpoint select {A} (mask : list bool) (l : list A) : list A :=
  match mask, l with
  | b :: mask, x :: l => if b then x :: select mask l else select mask l
  | _, _ => []
  end.
(** numpy.where, lines 3114, 3119. *)
Definition where_ (mask : list bool) : list nat := select mask (seq 0 (length mask)).
(** Lines 3111-3120: rows of idca or idce data whose case code ([index.codes[0]]) is among the positions. *)
Definition split_rows {A} (mask : list bool) (rows : list (nat * A)) : list (nat * A) :=
  filter (fun r => existsb (Nat.eqb (fst r)) (where_ mask)) rows.
(** Line 3121 (idce only): remove_unused_level (util/multiindex.py 6-60) renumbers the codes in use. *)
Definition renumber {A} (rows : list (nat * A)) : list (nat * A) :=
  map (fun r => (length (filter (fun c => Nat.ltb c (fst r)) (nodup Nat.eq_dec (map fst rows))), snd r)) rows.
(** Lines 3136-3149: the new DataFrames of part [s]; its weight_normalization is the default, 1 (line 706). *)
Definition split_part (d : dfs) (splits useq : list R) (s : nat) : dfs :=
  let mask := these_positions splits useq s in
  mkD (length (where_ mask)) (select mask (d_ch d)) (option_map (select mask) (d_wt d)) 1.
(** Lines 3056-3154. *)
Definition split (d : dfs) (splits useq : list R) : option (list dfs) :=
  if Nat.leb (length splits) 1 then None
  else Some (map (split_part d splits useq) (seq 0 (length splits))).
