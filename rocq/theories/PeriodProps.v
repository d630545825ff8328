(** C75: the label of every value is that of the section it is in. *)
From Verif Require Import PeriodModel PeriodSpec.
From Coq Require Import Lra Lia.

Lemma mask_within left right s x : mask left right s (Fin x) = true <-> within left right x (snd s).
Proof.
  destruct s as [k [lo hi]]. unfold mask, within, lop, rop. cbn [fst snd]. rewrite Bool.andb_true_iff.
  assert (A : (if left then nle (lower lo) (Fin x) else nlt (lower lo) (Fin x)) = true <-> (forall a, lo = Some a -> if left then (a <= x)%R else (a < x)%R)).
  { destruct lo as [a|]; cbn [lower]; unfold nlt, nle; [|destruct left; cbn; split; auto; intros; discriminate].
    destruct left; [destruct (Rle_dec a x)|destruct (Rle_dec x a)]; cbn [negb]; split; intro H; try discriminate; try reflexivity; try (intros b Q; injection Q as <-; lra); try (specialize (H a eq_refl); exfalso; lra).
  }
  assert (B : (if right then nle (Fin x) (upper hi) else nlt (Fin x) (upper hi)) = true <-> (forall a, hi = Some a -> if right then (x <= a)%R else (x < a)%R)).
  { destruct hi as [a|]; cbn [upper]; unfold nlt, nle; [|destruct right; cbn; split; auto; intros; discriminate].
    destruct right; [destruct (Rle_dec x a)|destruct (Rle_dec a x)]; cbn [negb]; split; intro H; try discriminate; try reflexivity; try (intros b Q; injection Q as <-; lra); try (specialize (H a eq_refl); exfalso; lra).
  }
  now rewrite A, B.
Qed.
Lemma mask_nan left right s : mask left right s NaN = false.
Proof. unfold mask, lop, nle, nlt. now destruct left, (lower (fst (snd s))). Qed.

(** helper: the label of one value, on its own (data_manipulation.py 125-130). *)
Definition one (w : option nat) (left right : bool) (l : list section) (v : num) (x : option string) : option string :=
  fold_left (fun x s => if mask left right s v then Some (kept w (fst s)) else x) l x.
Lemma fold_nth w left right values l : forall x n v, length x = length values -> nth_error values n = Some v ->
  nth_error (fold_left (label_section w left right values) l x) n = match nth_error x n with Some y => Some (one w left right l v y) | None => None end.
Proof.
  induction l as [|s l IH]; intros x n v L N; cbn [fold_left one].
  - unfold one. cbn. destruct (nth_error x n); reflexivity.
  - assert (Q : forall values x, length x = length values -> length (label_section w left right values x s) = length values /\
      forall n v, nth_error values n = Some v -> nth_error (label_section w left right values x s) n =
        match nth_error x n with Some y => Some (if mask left right s v then Some (kept w (fst s)) else y) | None => None end).
    { clear. unfold label_section. induction values as [|a values IH]; intros [|y x] L; cbn in L; try discriminate; (split; [|intros n v N]).
      - reflexivity.
      - destruct n; discriminate.
      - cbn. f_equal. now apply IH, eq_add_S.
      - destruct n as [|n]; cbn in N |- *; [now injection N as <-|]. apply IH; [now apply eq_add_S|exact N]. }
    destruct (Q values x L) as [L' Q']. rewrite (IH _ n v L' N), (Q' n v N). destruct (nth_error x n); reflexivity.
Qed.
Lemma fold_length w left right values l : forall x, length x = length values -> length (fold_left (label_section w left right values) l x) = length values.
Proof.
  induction l as [|s l IH]; intros x L; [exact L|]. cbn [fold_left]. apply IH. unfold label_section. rewrite map_length, combine_length, L. apply Nat.min_id.
Qed.
(** helper: the cell of a value (data_manipulation.py 106-130). *)
Lemma cell c values m default right left kwargs n v : nth_error values n = Some v ->
  nth_error (fst (periodize c values m default right left kwargs)) n = Some (one (width c default) left right (given m ++ kwargs) v default).
Proof.
  intro N. unfold periodize. assert (E : fst (sections_of m kwargs) = given m ++ kwargs) by now destruct m.
  destruct (sections_of m kwargs) as [l m']. cbn [fst] in *. subst l.
  rewrite (fold_nth _ _ _ _ _ _ n v) by (auto; apply map_length). now rewrite nth_error_map, N.
Qed.
Lemma one_labelled left right default x l : labelled left right default x l (one None left right l (Fin x) default).
Proof.
  unfold one. induction l as [|s l IH] using rev_ind; [constructor; intros ? []|].
  rewrite fold_left_app. cbn [fold_left kept]. destruct (mask left right s (Fin x)) eqn:M.
  - apply l_last; [now apply mask_within|intros ? []].
  - assert (N : ~ within left right x (snd s)) by (rewrite <- mask_within; congruence).
    set (y := fold_left _ l default) in *. clearbody y. destruct IH as [l H|l s' r W H].
    + constructor. intros s' I. apply in_app_or in I as [I|[<-|[]]]; auto.
    + rewrite <- app_assoc. cbn [app]. apply l_last; [exact W|]. intros s2 I. apply in_app_or in I as [I|[<-|[]]]; auto.
Qed.
(** helper: texts no longer than the default are kept whole (data_manipulation.py 109, 130). *)
Lemma kept_whole n s : (String.length s <= n)%nat -> substring 0 n s = s.
Proof. revert n. induction s as [|a s IH]; intros [|n] H; cbn in *; try reflexivity; try lia. f_equal. apply IH. lia. Qed.
Lemma one_width n left right l v x : (forall s, In s l -> (String.length (fst s) <= n)%nat) -> one (Some n) left right l v x = one None left right l v x.
Proof.
  unfold one. revert x. induction l as [|s l IH]; intros x H; [reflexivity|]. cbn [fold_left]. rewrite IH by (intros; apply H; now right).
  destruct (mask left right s v); [|reflexivity]. cbn [kept]. rewrite kept_whole; [reflexivity|]. apply H. now left.
Qed.
Lemma one_nan w left right l x : one w left right l NaN x = x.
Proof. unfold one. revert x. induction l as [|s l IH]; intro x; [reflexivity|]. cbn [fold_left]. now rewrite mask_nan. Qed.

(** ** One label for every value *)
(** Every number of a Series, or of an array without a default, gets the label of the last section it is in, or the default. *)
Theorem C75_labels : forall c values m default right left kwargs n x, c = Series \/ default = None -> nth_error values n = Some (Fin x) ->
  exists y, nth_error (fst (periodize c values m default right left kwargs)) n = Some y /\ labelled left right default x (given m ++ kwargs) y.
Proof.
  intros c values m default right left kwargs n x C N. eexists. split; [eapply cell; exact N|].
  replace (width c default) with (@None nat) by (destruct C as [->| ->]; [reflexivity|now destruct c]). apply one_labelled.
Qed.
(** In an array with a default, so long as no label is longer than the default. *)
Theorem C75_array_partial : forall values m d right left kwargs n x, (forall s, In s (given m ++ kwargs) -> (String.length (fst s) <= String.length d)%nat) ->
  nth_error values n = Some (Fin x) ->
  exists y, nth_error (fst (periodize Array values m (Some d) right left kwargs)) n = Some y /\ labelled left right (Some d) x (given m ++ kwargs) y.
Proof.
  intros values m d right left kwargs n x L N. eexists. split; [eapply cell; exact N|]. cbn [width].
  rewrite one_width by (intros s I; specialize (L s I); lia). apply one_labelled.
Qed.
(** As many labels as values, whatever they are. *)
Theorem C75_length : forall c values m default right left kwargs, length (fst (periodize c values m default right left kwargs)) = length values.
Proof.
  intros. unfold periodize. destruct (sections_of m kwargs) as [l m']. cbn [fst]. apply fold_length. apply map_length.
Qed.
(** A label is one thing. *)
Theorem C75_one_label : forall left right default x l y z, labelled left right default x l y -> labelled left right default x l z -> y = z.
Proof.
  assert (G : forall left right default x l y, labelled left right default x l y -> y = one None left right l (Fin x) default).
  { intros left right default x l y H. unfold one. destruct H as [l H|l s r W H].
    - induction l as [|s l IH] using rev_ind; [reflexivity|]. rewrite fold_left_app. cbn [fold_left].
      destruct (mask left right s (Fin x)) eqn:M; [apply mask_within in M; exfalso; apply (H s); [apply in_or_app; right; now left|exact M]|].
      apply IH. intros s' I. apply H. apply in_or_app. now left.
    - rewrite fold_left_app. cbn [fold_left kept]. apply mask_within in W. rewrite W. generalize (Some (fst s)) as y. 
      induction r as [|s' r IH]; intro y; [reflexivity|]. cbn [fold_left].
      destruct (mask left right s' (Fin x)) eqn:M; [apply mask_within in M; exfalso; apply (H s'); [now left|exact M]|].
      apply IH. intros s2 I. apply H. now right. }
  intros left right default x l y z A B. apply G in A, B. congruence.
Qed.
(** NaN is in no section. *)
Theorem C75_nan : forall c values m default right left kwargs n, nth_error values n = Some NaN ->
  nth_error (fst (periodize c values m default right left kwargs)) n = Some default.
Proof. intros. erewrite cell by eassumption. now rewrite one_nan. Qed.
(** A section to [b] and one from [b] on: with one of the bounds left out, [b] and every number around it is in just one; with both in, the default, [b] gets the later label. *)
Theorem C75_boundary : forall k1 k2 a b c x left right default, (a < b < c)%R -> (a < x < c)%R ->
  labelled left right default x [(k1, (Some a, Some b)); (k2, (Some b, Some c))]
    (if Req_EM_T x b then (if left then Some k2 else if right then Some k1 else default) else if Rlt_dec x b then Some k1 else Some k2).
Proof.
  intros k1 k2 a b c x left right default O X.
  assert (In1 : within left right x (Some a, Some b) <-> if right then (x <= b)%R else (x < b)%R).
  { unfold within. cbn [fst snd]. split; [intros [_ H]; exact (H b eq_refl)|]. intro H. split; intros q Q; injection Q as <-; [destruct left; lra|exact H]. }
  assert (In2 : within left right x (Some b, Some c) <-> if left then (b <= x)%R else (b < x)%R).
  { unfold within. cbn [fst snd]. split; [intros [H _]; exact (H b eq_refl)|]. intro H. split; intros q Q; injection Q as <-; [exact H|destruct right; lra]. }
  assert (K1 : within left right x (Some a, Some b) -> ~ within left right x (Some b, Some c) -> labelled left right default x [(k1, (Some a, Some b)); (k2, (Some b, Some c))] (Some k1)).
  { intros A B. apply (l_last left right default x [] (k1, (Some a, Some b)) [(k2, (Some b, Some c))]); [exact A|]. intros s [<-|[]]. exact B. }
  assert (K2 : within left right x (Some b, Some c) -> labelled left right default x [(k1, (Some a, Some b)); (k2, (Some b, Some c))] (Some k2)).
  { intro A. apply (l_last left right default x [(k1, (Some a, Some b))] (k2, (Some b, Some c)) []); [exact A|]. intros s []. }
  destruct (Req_EM_T x b) as [->|Nb]; [|destruct (Rlt_dec x b)].
  - destruct left; [apply K2; apply In2; lra|]. destruct right; [apply K1; [apply In1; lra|rewrite In2; lra]|].
    constructor. intros s [<-|[<-|[]]]; cbn [snd]; [rewrite In1|rewrite In2]; lra.
  - apply K1; [apply In1; destruct right; lra|rewrite In2; destruct left; lra].
  - apply K2. apply In2. destruct left; lra.
Qed.
(** ** The caller's mapping *)
(** None and dicts are left as they are. *)
Theorem C75_mapping_kept : forall c values m default right left kwargs, (forall l, m <> ListMapping l) -> snd (periodize c values m default right left kwargs) = m.
Proof. intros c values m default right left kwargs H. destruct m as [|l|l]; [reflexivity|reflexivity|]. now contradiction (H l). Qed.
(** Wrong: a list is extended in place: the keyword sections of one call are used by the next call with the same list too. *)
Theorem C75_mapping_changed_refuted : exists v m kw, let first := periodize Series [Fin v] m (Some "OP") true true kw in
  fst (periodize Series [Fin v] m (Some "OP") true true []) = [Some "OP"] /\ fst (periodize Series [Fin v] (snd first) (Some "OP") true true []) = [Some "AM"] /\ snd first <> m.
Proof.
  exists 7%R, (ListMapping []), [("AM", (Some 6%R, Some 9%R))]. cbn. unfold label_section, mask, lop, rop, nle. cbn.
  destruct (Rle_dec 6 7); [|lra]. destruct (Rle_dec 7 9); [|lra]. repeat split. discriminate.
Qed.
(** Wrong: an array keeps only as many letters as the default has: two sections get the same label. *)
Theorem C75_array_refuted : exists x y m, fst (periodize Array [Fin x; Fin y] m (Some "OP") true true []) = [Some "PM"; Some "PM"] /\
  labelled true true (Some "OP") x (given m) (Some "PM early") /\ labelled true true (Some "OP") y (given m) (Some "PM late").
Proof.
  exists 16%R, 19%R, (DictMapping [("PM early", (Some 15%R, Some 17%R)); ("PM late", (Some 18%R, Some 20%R))]). split; [|split].
  - cbn. unfold label_section, mask, lop, rop, nle. cbn.
    repeat match goal with |- context [Rle_dec ?a ?b] => destruct (Rle_dec a b); try (exfalso; lra) end; reflexivity.
  - apply (l_last true true (Some "OP") 16 [] ("PM early", (Some 15%R, Some 17%R)) [("PM late", (Some 18%R, Some 20%R))]).
    + split; cbn; intros q Q; injection Q as <-; lra.
    + intros s [<-|[]] [A _]. specialize (A 18%R eq_refl). cbn in A. lra.
  - apply (l_last true true (Some "OP") 19 [("PM early", (Some 15%R, Some 17%R))] ("PM late", (Some 18%R, Some 20%R)) []).
    + split; cbn; intros q Q; injection Q as <-; lra.
    + intros s [].
Qed.

(** ** Cases that meet the hypotheses *)
(** The example of the docstring (data_manipulation.py 74-100). *)
Example hours0 : fst (periodize Series (map (fun n => Fin (INR n)) [6; 7; 9; 10; 19; 20]%nat) NoMapping (Some "OP") true true [("AM", (Some (13/2)%R, Some 9%R)); ("PM", (Some 16%R, Some 19%R))]) =
  [Some "OP"; Some "AM"; Some "AM"; Some "OP"; Some "PM"; Some "OP"].
Proof.
  cbn -[INR]. unfold label_section, mask, lop, rop, nle. cbn -[INR]. rewrite !INR_IZR_INZ. cbn -[Rle_dec].
  repeat match goal with |- context [Rle_dec ?a ?b] => destruct (Rle_dec a b); try (exfalso; lra) end; reflexivity.
Qed.
Example boundary0 : (0 < 1 < 2)%R /\ (0 < 1 < 2)%R /\ (forall l, NoMapping <> ListMapping l) /\ (forall s : section, In s [("AM", (Some 0%R, None))] -> (String.length (fst s) <= String.length "OP")%nat).
Proof. repeat split; try lra; try discriminate. intros s [<-|[]]. cbn. lia. Qed.
