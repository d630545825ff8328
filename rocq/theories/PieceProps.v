(** C51: piecewise linear legs. *)
From Verif Require Import PieceModel PieceSpec PieceProofs.
Open Scope R_scope.

(** For breaks that do not decrease, the columns of the expansion of [x] add up to [x]. *)
Theorem C51_legs_add_up x breaks row :
  increasing breaks -> piecewise_expansion x breaks = Some row -> rsum row = x.
Proof.
  unfold piecewise_expansion. destruct (legs breaks) as [l|] eqn:E; [|discriminate].
  intros H R. injection R as <-. now apply (legs_sum x breaks).
Qed.
(** One column more than there are breaks; each has its bounds. *)
Theorem C51_within x breaks row :
  increasing breaks -> piecewise_expansion x breaks = Some row ->
  length row = S (length breaks) /\
  nth 0 row 0 <= nth 0 breaks 0 /\
  (forall k, (0 < k < length breaks)%nat -> 0 <= nth k row 0 <= nth k breaks 0 - nth (k - 1) breaks 0) /\
  0 <= nth (length breaks) row 0.
Proof.
  unfold piecewise_expansion. destruct (legs breaks) as [l|] eqn:E; [|discriminate].
  intros H R. injection R as <-. pose proof (legs_length _ _ E) as Hl. rewrite map_length.
  assert (N : forall k, (k < length l)%nat -> nth k (map (piece x) l) 0 = piece x (nth k l (None, None))).
  { intros k Hk. rewrite (nth_indep _ 0 (piece x (None, None))) by (rewrite map_length; auto). apply map_nth. }
  assert (B : breaks <> []) by (destruct breaks; [discriminate|congruence]).
  assert (0 < length breaks)%nat by (destruct breaks; [contradiction|simpl; lia]).
  split; [auto|]. split; [|split].
  - rewrite N by lia. pose proof (legs_within _ _ x 0 H E ltac:(lia)) as W. rewrite (legs_nth _ _ _ E) in * by lia.
    destruct (Nat.ltb_spec 0 (length breaks)); [exact W|lia].
  - intros k Hk. rewrite N by lia. pose proof (legs_within _ _ x k H E ltac:(lia)) as W. rewrite (legs_nth _ _ _ E) in * by lia.
    destruct k as [|k]; [lia|]. destruct (Nat.ltb_spec (S k) (length breaks)); [|lia].
    replace (S k - 1)%nat with k by lia. exact W.
  - rewrite N by lia. pose proof (legs_within _ _ x (length breaks) H E ltac:(lia)) as W. rewrite (legs_nth _ _ _ E) in * by lia.
    destruct (length breaks) as [|k]; [lia|]. destruct (Nat.ltb_spec (S k) (S k)); [lia|]. exact W.
Qed.
(** When a later leg is active, every earlier one is at its largest value. *)
Theorem C51_only_consecutive x breaks row :
  increasing breaks -> piecewise_expansion x breaks = Some row ->
  forall i j, (i < j <= length breaks)%nat -> 0 < nth j row 0 ->
  nth i row 0 = match i with O => nth 0 breaks 0 | S k => nth i breaks 0 - nth k breaks 0 end.
Proof.
  unfold piecewise_expansion. destruct (legs breaks) as [l|] eqn:E; [|discriminate].
  intros H R i j Hij. injection R as <-. pose proof (legs_length _ _ E) as Hl.
  assert (N : forall k, (k < length l)%nat -> nth k (map (piece x) l) 0 = piece x (nth k l (None, None))).
  { intros k Hk. rewrite (nth_indep _ 0 (piece x (None, None))) by (rewrite map_length; auto). apply map_nth. }
  rewrite !N by lia. intros Hp. pose proof (legs_consecutive breaks l x i j H E ltac:(split; lia) Hp) as F.
  rewrite (legs_nth _ _ i E) in * by lia. destruct (Nat.ltb_spec i (length breaks)); [|lia].
  destruct i; exact F.
Qed.
(** The function built from the breaks: its slope within segment [k] is parameter number [k], every
    point is in a segment, and with equal parameters it is the plain linear term. *)
Theorem C51_slope p x y breaks k v w :
  increasing breaks -> in_segment breaks k x -> in_segment breaks k y ->
  piecewise_linear p x breaks = Some v -> piecewise_linear p y breaks = Some w -> w - v = p k * (y - x).
Proof. apply slope. Qed.
Theorem C51_every_point_has_a_segment breaks x : increasing breaks -> exists k, in_segment breaks k x.
Proof. apply every_segment. Qed.
Theorem C51_equal_parameters b x breaks v :
  increasing breaks -> piecewise_linear (fun _ => b) x breaks = Some v -> v = b * x.
Proof. apply equal_slopes. Qed.
(** Breaks read back from a piecewise function are those it was built with, and whenever breaks can
    be read from a function, its components are the legs of these breaks, in order. *)
Theorem C51_infer_roundtrip breaks l : legs breaks = Some l -> infer_breaks (map Some l) = Some (map Some breaks).
Proof. apply infer_legs. Qed.
Theorem C51_infer_sound fn breaks : infer_breaks fn = Some (map Some breaks) ->
  exists l, legs breaks = Some l /\ fn = map Some l.
Proof. apply infer_sound. Qed.
(** Breaks in the wrong order are accepted, and the legs do not add up. *)
Theorem C51_unsorted_breaks_refuted :
  exists x breaks row, piecewise_expansion x breaks = Some row /\ rsum row <> x.
Proof.
  exists (3/2), [2; 1]. eexists. split; [reflexivity|]. cbn. unfold clip, Rmin, Rmax. rcases; lra.
Qed.

(** Non-vacuity: breaks 1, 2, 5 and the values 3 and 4. *)
Example C51_example :
  increasing [1; 2; 5] /\ in_segment [1; 2; 5] 2 3 /\ in_segment [1; 2; 5] 2 4 /\
  (exists row, piecewise_expansion 3 [1; 2; 5] = Some row /\ 0 < nth 2 row 0 /\ nth 1 row 0 = 1).
Proof.
  split; [|split; [|split]].
  - intros i j Hij Hj. simpl in Hj. destruct i as [|[|[|i]]], j as [|[|[|j]]]; simpl; try lra; lia.
  - split; [simpl; lia|]. split; intros i Hi; simpl in Hi; destruct i as [|[|[|i]]]; simpl; try lra; lia.
  - split; [simpl; lia|]. split; intros i Hi; simpl in Hi; destruct i as [|[|[|i]]]; simpl; try lra; lia.
  - eexists. split; [reflexivity|]. cbn. unfold clip, Rmin, Rmax. split; rcases; lra.
Qed.
