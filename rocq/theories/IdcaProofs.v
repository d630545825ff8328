(** Proofs about reading a table of cases and alternatives. *)
From Verif Require Export IdcaSpec.
From Coq Require Import Lqa Permutation.
Open Scope nat_scope.

(** ** Levels in use *)
Lemma existsb_in : forall codes c, existsb (Nat.eqb c) codes = true <-> In c codes.
Proof.
  intros. rewrite existsb_exists. split.
  - intros (x & Hx & E). apply Nat.eqb_eq in E. now subst.
  - intros H. exists c. split; auto. apply Nat.eqb_refl.
Qed.
Definition used_from {A} (p : nat -> bool) (s : nat) (l : list A) : list A :=
  map fst (filter (fun q => p (snd q)) (combine l (seq s (length l)))).
Lemma used_from_cons : forall A p s (x : A) l,
  used_from p s (x :: l) = if p s then x :: used_from p (S s) l else used_from p (S s) l.
Proof. intros. unfold used_from. cbn. now destruct (p s). Qed.
Lemma used_from_nth : forall A p (l : list A) s c, c < length l -> p (s + c) = true ->
  nth_error (used_from p s l) (length (filter p (seq s c))) = nth_error l c.
Proof.
  intros A p. induction l as [|x l IH]; intros s c L P; cbn in L; [lia|].
  rewrite used_from_cons. destruct c as [|c].
  - rewrite Nat.add_0_r in P. rewrite P. reflexivity.
  - cbn. destruct (p s) eqn:E; cbn; apply IH; try lia; now replace (S s + c) with (s + S c) by lia.
Qed.
Lemma used_from_inv : forall A p (l : list A) s j x, nth_error (used_from p s l) j = Some x ->
  exists c, c < length l /\ p (s + c) = true /\ nth_error l c = Some x /\ j = length (filter p (seq s c)).
Proof.
  intros A p. induction l as [|y l IH]; intros s j x H.
  - destruct j; discriminate.
  - rewrite used_from_cons in H. destruct (p s) eqn:E.
    + destruct j as [|j].
      * injection H as ->. exists 0. rewrite Nat.add_0_r. repeat split; auto. cbn; lia.
      * cbn in H. apply IH in H as (c & L & P & N & ->). exists (S c). cbn. rewrite E. repeat split; auto; try lia.
        now replace (s + S c) with (S s + c) by lia.
    + apply IH in H as (c & L & P & N & ->). exists (S c). cbn. rewrite E. repeat split; auto; try lia.
      now replace (s + S c) with (S s + c) by lia.
Qed.
Lemma used_from_incl : forall A p (l : list A) s x, In x (used_from p s l) -> In x l.
Proof.
  intros A p l s x H. apply In_nth_error in H as (j & H). apply used_from_inv in H as (c & _ & _ & N & _).
  eapply nth_error_In; eauto.
Qed.
Lemma used_from_nodup : forall A p (l : list A) s, NoDup l -> NoDup (used_from p s l).
Proof.
  intros A p. induction l as [|x l IH]; intros s H; [constructor|].
  inversion_clear H. rewrite used_from_cons. destruct (p s); auto. constructor; auto.
  intros I. apply used_from_incl in I. auto.
Qed.
Lemma used_from_len : forall A p (l : list A) s, length (used_from p s l) <= length l.
Proof.
  intros A p. induction l as [|x l IH]; intros s; [cbn; lia|]. rewrite used_from_cons.
  specialize (IH (S s)). destruct (p s); cbn; lia.
Qed.
Lemma used_from_all : forall A p (l : list A) s, length (used_from p s l) = length l ->
  used_from p s l = l /\ forall c, c <= length l -> length (filter p (seq s c)) = c.
Proof.
  intros A p. induction l as [|x l IH]; intros s H.
  - split; auto. intros c L. cbn in L. replace c with 0 by lia. reflexivity.
  - rewrite used_from_cons in *. pose proof (used_from_len A p l (S s)). destruct (p s) eqn:E; cbn in H; [|lia].
    destruct (IH (S s)) as [I J]; [lia|]. rewrite I. split; auto.
    intros [|c] L; auto. cbn. rewrite E. cbn. f_equal. apply J. cbn in L; lia.
Qed.
Lemma count_mono : forall p s c c', c < c' -> p (s + c) = true ->
  length (filter p (seq s c)) < length (filter p (seq s c')).
Proof.
  intros p s c c' L P. replace c' with (c + S (c' - c - 1)) by lia. rewrite seq_app, filter_app, app_length.
  cbn. rewrite P. cbn. lia.
Qed.

Lemma used_levels_from : forall A (l : list A) codes,
  used_levels l codes = used_from (fun k => existsb (Nat.eqb k) codes) 0 l.
Proof. reflexivity. Qed.
Lemma used_nth : forall A (l : list A) codes c, c < length l -> In c codes ->
  nth_error (used_levels l codes) (new_code codes c) = nth_error l c.
Proof. intros. rewrite used_levels_from. apply used_from_nth; auto. cbn. now apply existsb_in. Qed.
Lemma used_inv : forall A (l : list A) codes j x, nth_error (used_levels l codes) j = Some x ->
  exists c, In c codes /\ c < length l /\ nth_error l c = Some x /\ j = new_code codes c.
Proof.
  intros A l codes j x H. rewrite used_levels_from in H. apply used_from_inv in H as (c & L & P & N & ->).
  exists c. cbn in P. apply existsb_in in P. repeat split; auto.
Qed.
Lemma used_lt : forall A (l : list A) codes c, c < length l -> In c codes ->
  new_code codes c < length (used_levels l codes).
Proof.
  intros. apply nth_error_Some. rewrite used_nth by auto. now apply nth_error_Some.
Qed.
Lemma new_code_inj : forall codes c c', In c codes -> In c' codes -> new_code codes c = new_code codes c' -> c = c'.
Proof.
  intros codes c c' I I' E. unfold new_code in E.
  destruct (Nat.lt_trichotomy c c') as [L|[L|L]]; auto; exfalso.
  - apply (count_mono (fun k => existsb (Nat.eqb k) codes) 0) in L; [lia|now apply existsb_in].
  - apply (count_mono (fun k => existsb (Nat.eqb k) codes) 0) in L; [lia|now apply existsb_in].
Qed.

(** ** Placing rows *)
Lemma last_written_row : forall codes vals i j v, last_written codes vals i j = Some v ->
  exists r, nth_error codes r = Some (i, j) /\ nth_error vals r = Some v.
Proof.
  induction codes as [|c cs IH]; intros vals i j v H; [discriminate|].
  destruct vals as [|w vs]; [discriminate|]. cbn in H. destruct (last_written cs vs i j) eqn:E.
  - injection H as ->. apply IH in E as (r & A & B). now exists (S r).
  - destruct (_ && _) eqn:T; [|discriminate]. injection H as ->. apply andb_prop in T as [X Y].
    apply Nat.eqb_eq in X, Y. exists 0. destruct c. cbn in *. now subst.
Qed.
Lemma last_written_some : forall codes vals i j r, length vals = length codes -> nth_error codes r = Some (i, j) ->
  exists v, last_written codes vals i j = Some v.
Proof.
  induction codes as [|c cs IH]; intros vals i j r L N; [destruct r; discriminate|].
  destruct vals as [|w vs]; [discriminate|]. cbn in *. destruct (last_written cs vs i j) eqn:E; [eauto|].
  destruct r as [|r].
  - injection N as ->. cbn. rewrite !Nat.eqb_refl. cbn; eauto.
  - cbn in N. destruct (IH vs i j r) as (v & H); auto. congruence.
Qed.
Lemma last_written_nodup : forall codes vals i j r v, NoDup codes -> length vals = length codes ->
  nth_error codes r = Some (i, j) -> nth_error vals r = Some v -> last_written codes vals i j = Some v.
Proof.
  intros codes vals i j r v N L H V. destruct (last_written_some codes vals i j r L H) as (w & W).
  rewrite W. f_equal. apply last_written_row in W as (r' & A & B).
  assert (r = r') by (eapply (proj1 (NoDup_nth_error codes)); [auto|apply nth_error_Some; congruence|congruence]).
  congruence.
Qed.

(** ** Grids *)
Definition grid (nc na : nat) (g : nat -> nat -> cell) : list (list cell) :=
  map (fun i => map (g i) (seq 0 na)) (seq 0 nc).
Lemma nth_seq_map : forall A (f : nat -> A) n i, i < n -> nth_error (map f (seq 0 n)) i = Some (f i).
Proof.
  intros A f n i L. rewrite nth_error_map. replace (nth_error (seq 0 n) i) with (Some i); auto.
  symmetry. erewrite (nth_error_nth' _ 0) by (now rewrite seq_length). f_equal. now rewrite seq_nth.
Qed.
Lemma grid_cell : forall d nc na g i j, i < nc -> j < na -> cell_at (Dense d (grid nc na g)) i j = Some (g i j).
Proof. intros. cbn. unfold grid. rewrite nth_seq_map by auto. now apply nth_seq_map. Qed.
Lemma grid_map : forall f nc na g, map (map f) (grid nc na g) = grid nc na (fun i j => f (g i j)).
Proof. intros. unfold grid. rewrite map_map. apply map_ext. intros i. now rewrite map_map. Qed.
Lemma combine_seq_map : forall A (f : nat -> A) n s, combine (seq s n) (map f (seq s n)) = map (fun i => (i, f i)) (seq s n).
Proof. intros A f n. induction n as [|n IH]; intros s; cbn; auto. now rewrite IH. Qed.
Lemma combine_maps : forall A B C (f : C -> A) (g : C -> B) l, combine (map f l) (map g l) = map (fun x => (f x, g x)) l.
Proof. induction l; cbn; congruence. Qed.
Lemma where_grid : forall nc na d d' fl g c,
  where_ na (Dense d' (grid nc na fl)) c d (grid nc na g) =
  Dense (common d (dtype_of c)) (grid nc na (fun i j =>
    if nonzero (fl i j) then cast 0 (common d (dtype_of c)) (g i j) else cast 0 (common d (dtype_of c)) c)).
Proof.
  intros. unfold where_. f_equal.
  assert (H : combine (seq 0 (length (grid nc na g))) (grid nc na g) = map (fun i => (i, map (g i) (seq 0 na))) (seq 0 nc))
    by (unfold grid; now rewrite map_length, seq_length, combine_seq_map).
  rewrite H, map_map. unfold grid. apply map_ext_in. intros i I. apply in_seq in I. cbn.
  rewrite (nth_indep _ [] (map (fl 0) (seq 0 na))) by (rewrite map_length, seq_length; lia).
  rewrite (map_nth (fun i => map (fl i) (seq 0 na))), seq_nth by lia. cbn.
  rewrite map_map, combine_maps, map_map. reflexivity.
Qed.

(** ** Conversions that keep the meaning *)
Lemma same_refl : forall c, same c c.
Proof. intros c. unfold same. destruct (num c); auto. reflexivity. Qed.
Lemma there_and_back : forall junk d v, fits d v -> cast junk d (cast 0 (promote d) v) = v.
Proof.
  intros junk [] [] F; cbn in *; try contradiction; auto.
  now rewrite Z.quot_1_r.
Qed.
Lemma cast_own : forall junk d v, fits d v -> cast junk d v = v.
Proof. intros junk [] [] F; cbn in *; try contradiction; auto. Qed.
Lemma cast_up : forall d c v, fits d v \/ (d = DInt8 /\ exists z, v = CI z) -> same v (cast 0 (common d (dtype_of c)) v).
Proof.
  intros d c v [F|(-> & z & ->)].
  - destruct d, v; cbn in F; try contradiction; destruct c; cbn; try apply same_refl; unfold same; cbn; try reflexivity;
    destruct b; reflexivity.
  - destruct c; cbn; unfold same; cbn; reflexivity.
Qed.
Lemma fill_up : forall d c, same c (cast 0 (common d (dtype_of c)) c).
Proof.
  intros [] []; cbn; try apply same_refl; unfold same; cbn; try reflexivity; destruct b; reflexivity.
Qed.
Lemma same_trans : forall a b c, same a b -> same b c -> same a c.
Proof.
  unfold same. intros a b c. destruct (num a), (num b), (num c); try tauto.
  - intros H K. now rewrite H.
  - congruence.
Qed.
Lemma same_sym : forall a b, same a b -> same b a.
Proof. unfold same. intros a b. destruct (num a), (num b); try tauto; now symmetry. Qed.

(** ** Variance *)
Open Scope Q_scope.
Lemma sum_member : forall l x, (forall y, In y l -> 0 <= y) -> In x l -> x <= Qsum l.
Proof.
  unfold Qsum. induction l as [|y l IH]; intros x P I; [contradiction|]. cbn.
  assert (0 <= Qsum l). { clear -P. unfold Qsum. induction l as [|z l IH]; cbn; [lra|].
    assert (0 <= z) by (apply P; cbn; auto). assert (0 <= fold_right Qplus 0 l) by (apply IH; intros w [->|H1]; apply P; cbn; auto). lra. }
  unfold Qsum in *. destruct I as [->|I]; [lra|]. specialize (IH x (fun y H1 => P y (or_intror H1)) I).
  assert (0 <= y) by (apply P; cbn; auto). lra.
Qed.
Lemma sq_nonneg : forall x : Q, 0 <= x * x.
Proof. intros x. destruct (Qlt_le_dec x 0); nra. Qed.
Lemma mean_bound : forall l x, (forall y, In y l -> 0 <= y) -> In x l ->
  x <= inject_Z (Z.of_nat (length l)) * Qmean l.
Proof.
  intros l x P I. unfold Qmean. assert (0 < inject_Z (Z.of_nat (length l))).
  { destruct l; [contradiction|]. unfold Qlt, inject_Z. cbn. lia. }
  setoid_replace (inject_Z (Z.of_nat (length l)) * (Qsum l / inject_Z (Z.of_nat (length l)))) with (Qsum l)
    by (field; lra).
  now apply sum_member.
Qed.
Lemma variance_bound : forall l x y, In x l -> In y l ->
  (x - y) * (x - y) <= 4 * inject_Z (Z.of_nat (length l)) * variance l.
Proof.
  intros l x y I J. unfold variance.
  set (f := fun z => (z - Qmean l) * (z - Qmean l)).
  assert (P : forall z, In z (map f l) -> 0 <= z).
  { intros z Hz. apply in_map_iff in Hz as (w & <- & _). apply sq_nonneg. }
  pose proof (mean_bound (map f l) (f x) P (in_map f l x I)) as A.
  pose proof (mean_bound (map f l) (f y) P (in_map f l y J)) as B.
  rewrite map_length in A, B. set (n := inject_Z (Z.of_nat (length l))) in *.
  set (v := Qmean (map f l)) in *. set (m := Qmean l) in *.
  assert (H : (x - y) * (x - y) <= 2 * f x + 2 * f y).
  { unfold f. pose proof (sq_nonneg (x - m + (y - m))). lra. }
  lra.
Qed.
Close Scope Q_scope.

Lemma in_present : forall row c q, In c row -> num c = Some q -> In q (present row).
Proof. intros row c q I N. apply in_flat_map. exists c. rewrite N. cbn; auto. Qed.
Lemma present_len : forall row, length (present row) <= length row.
Proof.
  induction row as [|c row IH]; auto. change (present (c :: row)) with ((match num c with Some q => [q] | None => [] end) ++ present row). rewrite app_length. destruct (num c); cbn [length]; lia.
Qed.
Lemma least_in : forall row c q, In c row -> num c = Some q ->
  In (least row) row /\ exists m, num (least row) = Some m.
Proof.
  induction row as [|x row IH]; intros c q I N; [contradiction|]. cbn [least].
  destruct (num x) eqn:X.
  - destruct (num (least row)) eqn:L.
    + destruct (Qle_bool q0 q1); [split; cbn; eauto|].
      split; [|eauto]. right.
      destruct row as [|y row]; [discriminate|].
      assert (exists c' q', In c' (y :: row) /\ num c' = Some q') as (c' & q' & I' & N').
      { clear -L. remember (y :: row) as r. clear Heqr. revert q1 L. induction r as [|z r IHr]; intros; [discriminate|].
        cbn [least] in L. destruct (num z) eqn:Z; [exists z; eauto with datatypes|].
        destruct (IHr _ L) as (c' & q' & A & B). exists c', q'. split; auto with datatypes. }
      now apply (IH c' q').
    + split; cbn; eauto.
  - destruct I as [->|I]; [congruence|]. destruct (IH c q I N) as [A B].
    destruct (num (least row)); cbn; auto.
Qed.
Lemma dissolve_spec : forall rows row c, dissolves rows = true -> In row rows -> In c row ->
  forall q, num c = Some q -> exists m, In (least row) row /\ num (least row) = Some m /\
  ((q - m) * (q - m) <= (4 * Z.of_nat (length row) # 1) * (1 # 10 ^ 20))%Q.
Proof.
  intros rows row c D R I q N. destruct (least_in row c q I N) as (J & m & M). exists m. split; auto. split; auto.
  assert (V : (variance (present row) < tiny)%Q).
  { unfold dissolves in D. set (some := filter _ rows) in *.
    assert (S : In row some).
    { apply filter_In. split; auto. pose proof (in_present row c q I N). destruct (present row); auto. }
    destruct some as [|r0 s0]; [contradiction|]. rewrite forallb_forall in D. specialize (D row S).
    apply negb_true_iff in D. destruct (Qlt_le_dec (variance (present row)) tiny) as [H|H]; auto.
    apply Qle_bool_iff in H. congruence. }
  pose proof (variance_bound (present row) q m (in_present _ _ _ I N) (in_present _ _ _ J M)) as B.
  assert (P : (inject_Z (Z.of_nat (length (present row))) <= inject_Z (Z.of_nat (length row)))%Q).
  { pose proof (present_len row). unfold Qle, inject_Z. cbn. lia. }
  assert (P0 : (0 <= inject_Z (Z.of_nat (length (present row))))%Q) by (unfold Qle, inject_Z; cbn; lia).
  fold tiny. setoid_replace (4 * Z.of_nat (length row) # 1)%Q with (4 * inject_Z (Z.of_nat (length row)))%Q
    by (unfold Qeq, inject_Z; cbn; lia).
  set (n := inject_Z (Z.of_nat (length (present row)))) in *.
  set (k := inject_Z (Z.of_nat (length row))) in *. set (w := variance (present row)) in *.
  eapply Qle_trans; [exact B|].
  assert (0 < tiny)%Q by (unfold tiny; reflexivity). revert V B P P0 H. generalize tiny. clearbody n k w. clear.
  intros e V B P P0 H. apply Qle_trans with (4 * n * e)%Q; [|nra].
  setoid_replace (4 * n * w)%Q with (n * (4 * w))%Q by ring.
  setoid_replace (4 * n * e)%Q with (n * (4 * e))%Q by ring. 
  assert (0 <= n * (4 * e - 4 * w))%Q by (apply Qmult_le_0_compat; lra). lra.
Qed.
