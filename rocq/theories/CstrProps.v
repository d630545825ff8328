(** C60: a constraint written as text says what the text says. *)
From Verif Require Import ParamModel ConsModel ConsSpec ConsProofs CstrModel CstrSpec CstrProofs CstrReads CstrOrder.
From Coq Require Import Ascii.
Open Scope R_scope.

(** *** Every understood sentence whose parameter names cannot pass for numbers is read, whatever its blanks and
    whichever of "<" and "<=" it uses, as the constraint it states. *)
Theorem C60_reads_what_it_says_partial : forall s c, understood s -> plain s -> written s c ->
  exists b, interpret c = Says b /\ forall v, holds b v <-> true_at v s.
Proof.
  intros s c U L W. destruct (understood_reads s c U L W) as (b & T & E). exists b. split; auto.
  now apply translation_means.
Qed.
(** The same, with the constraint object given outright. *)
Theorem C60_fixed_bounds : forall p r r', ~ looks_numeric (list_ascii_of_string p) ->
  (forall c, written (Two (Par p) LE (Num r)) c -> interpret c = Says (Fixed p None (Some (Fin r)))) /\
  (forall c, written (Two (Num r) GE (Par p)) c -> interpret c = Says (Fixed p None (Some (Fin r)))) /\
  (forall c, written (Two (Par p) GE (Num r)) c -> interpret c = Says (Fixed p (Some (Fin r)) None)) /\
  (forall c, written (Two (Num r) LE (Par p)) c -> interpret c = Says (Fixed p (Some (Fin r)) None)) /\
  (forall c, written (Three (Num r) LE (Par p) LE (Num r')) c ->
     interpret c = Says (Fixed p (Some (Fin r)) (Some (Fin r')))).
Proof.
  intros p r r' N. repeat split; intros c W;
  (apply understood_reads in W as (b & T & ->); [cbn in T; now injection T as <-|constructor|cbn; auto]).
Qed.
Theorem C60_orderings_and_ratios : forall p q r r',
  ~ looks_numeric (list_ascii_of_string p) -> ~ looks_numeric (list_ascii_of_string q) ->
  (forall c, written (Two (Par p) LE (Par q)) c -> interpret c = Says (Order p q)) /\
  (forall c, written (Two (Par p) GE (Par q)) c -> interpret c = Says (Order q p)) /\
  (forall c, written (Two (Quo p q) LE (Num r)) c -> interpret c = Says (Ratio p q None (Some r))) /\
  (forall c, written (Two (Quo p q) GE (Num r)) c -> interpret c = Says (Ratio p q (Some r) None)) /\
  (forall c, written (Three (Num r) LE (Quo p q) LE (Num r')) c -> interpret c = Says (Ratio p q (Some r) (Some r'))).
Proof.
  intros p q r r' N N'. repeat split; intros c W;
  (apply understood_reads in W as (b & T & ->); [cbn in T; now injection T as <-|constructor|cbn; auto]).
Qed.
(** *** Nothing is ever read as something it does not say. *)
Theorem C60_never_misread : forall c b, interpret c = Says b ->
  exists s, understood s /\ written s c /\ forall v, holds b v <-> true_at v s.
Proof.
  intros c b H. apply read_is_sentence in H as (s & U & W & T). exists s. repeat split; auto; now apply translation_means.
Qed.
(** A text with plain names has one meaning. *)
Theorem C60_unambiguous : forall s s' c, understood s -> plain s -> understood s' -> plain s' ->
  written s c -> written s' c -> forall v, true_at v s <-> true_at v s'.
Proof.
  intros s s' c U L U' L' W W' v. destruct (C60_reads_what_it_says_partial s c U L W) as (b & E & H).
  destruct (C60_reads_what_it_says_partial s' c U' L' W') as (b' & E' & H').
  assert (b = b') by congruence. subst. rewrite <- H. apply H'.
Qed.
(** *** Reading numbers: the decimal notation, and the fraction notation. *)
Theorem C60_numbers : forall w r, numeral w r -> asfloat w = Some r.
Proof. exact numeral_asfloat. Qed.
Theorem C60_numbers_only : forall w r, pyfloat w = Some r -> numeral w r.
Proof. exact pyfloat_sound. Qed.
(** *** The constraint made from a text, linked to a model: its function is non-negative exactly where the text is
    true of the parameter values. *)
Theorem C60_function_follows_text_partial : forall f tol s c b c' x,
  understood s -> plain s -> written s c -> interpret c = Says b ->
  link_model f None (new_cons tol b) = Some c' -> length x = length (rows f) ->
  meaningful f b (value_of (names (rows f)) x) ->
  (nonneg (cfun c' x) <-> true_at (value_of (names (rows f)) x) s).
Proof.
  intros f tol s c b c' x U L W E Lk Hx M.
  destruct (C60_reads_what_it_says_partial s c U L W) as (b' & E' & H). assert (b = b') by congruence. subst b'.
  rewrite <- H. apply (cfun_sign f None (new_cons tol b)); auto.
  rewrite (link_scale _ _ _ Lk). apply new_scale_pos.
Qed.
(** Adding a text to the list adds that constraint, linked, in last place; a text that is not read leaves the list
    alone. *)
Theorem C60_append_text : forall f tol s c l, dupes l = false -> understood s -> plain s -> written s c ->
  exists b, interpret c = Says b /\
    cl_insert_text f tol (Z.of_nat (length (cx l))) c l = cl_append f (new_cons tol b) l /\
    forall v, holds b v <-> true_at v s.
Proof.
  intros f tol s c l D U L W. destruct (C60_reads_what_it_says_partial s c U L W) as (b & E & H).
  exists b. unfold cl_insert_text. rewrite E. auto.
Qed.
Theorem C60_unread_text_changes_nothing : forall f tol i c l, (forall b, interpret c <> Says b) ->
  cl_insert_text f tol i c l = CExn l /\ cl_set_text f tol i c l = CExn l.
Proof.
  intros f tol i c l H. unfold cl_insert_text, cl_set_text. destruct (interpret c); auto. exfalso. now apply (H s).
Qed.
(** *** OrderingBound's own reading of one string: any two names without "<", ">" in them, in the direction of the
    sign; and it agrees with the list's reading. *)
Theorem C60_ordering_string : forall o a b s1 s2 t s3 s4, wide_name a -> wide_name b ->
  spaces s1 -> spaces s2 -> spaces s3 -> spaces s4 -> rel_text o t ->
  exists k, ordering_text (s1 ++ a ++ s2 ++ t ++ s3 ++ b ++ s4) = Some k /\
    forall v, holds k v <-> related o (v (str_of a)) (v (str_of b)).
Proof.
  intros. rewrite (ordering_reads o) by auto. eexists; split; eauto. intros v. destruct o; reflexivity.
Qed.
Theorem C60_two_readers_agree : forall c p q, interpret c = Says (Order p q) -> ordering_text c = Some (Order p q).
Proof. exact agree. Qed.

(** *** What a user could expect and does not get. *)
(** A parameter whose name is e or E and digits ("E1") cannot be the greater side: the text is refused, with an
    error about a number. *)
Theorem C60_exponent_name_refuted : forall p e d s1 s2 t s3 s4, name_text p -> e = ch 101 \/ e = ch 69 ->
  Forall digit d -> spaces s1 -> spaces s2 -> rel_text LE t -> spaces s3 -> spaces s4 ->
  let c := s1 ++ p ++ s2 ++ t ++ s3 ++ (e :: d) ++ s4 in
  understood (Two (Par (str_of p)) LE (Par (str_of (e :: d)))) /\
  written (Two (Par (str_of p)) LE (Par (str_of (e :: d)))) c /\ interpret c = BadNumber.
Proof.
  intros p e d s1 s2 t s3 s4 Np He Fd S1 S2 R S3 S4 c. split; [constructor|]. split.
  - apply wr_two; auto; constructor; auto. split; [discriminate|]. constructor.
    + unfold name_char. destruct He; subst; rewrite cd_ch; lia.
    + eapply Forall_impl; [|exact Fd]. unfold name_char. auto.
  - now apply le_exponent_name.
Qed.
(** A parameter whose name is digits is taken for the number instead. *)
Theorem C60_digit_name_refuted : forall p d s1 s2 t s3 s4, name_text p -> Forall digit d -> d <> [] -> p <> d ->
  spaces s1 -> spaces s2 -> rel_text LE t -> spaces s3 -> spaces s4 ->
  let c := s1 ++ p ++ s2 ++ t ++ s3 ++ d ++ s4 in
  written (Two (Par (str_of p)) LE (Par (str_of d))) c /\
  exists b v, interpret c = Says b /\ holds b v /\ ~ true_at v (Two (Par (str_of p)) LE (Par (str_of d))).
Proof.
  intros p d s1 s2 t s3 s4 Np Fd Nd Hpd S1 S2 R S3 S4 c. split.
  - apply wr_two; auto; constructor; auto. split; auto. eapply Forall_impl; [|exact Fd]. unfold name_char. auto.
  - eexists. exists (fun n => if String.eqb n (str_of p) then digits_value d else digits_value d - 1).
    split; [apply le_digit_name; auto|]. rewrite hold_upper. cbn [true_at related side_value].
    rewrite String.eqb_refl.
    destruct (String.eqb_spec (str_of d) (str_of p)) as [E|E]; [|split; lra].
    exfalso. apply Hpd. rewrite <- (las p), <- (las d), E. auto.
Qed.
(** A ratio is only read on the left, and a chain only upwards. *)
Theorem C60_ratio_on_the_right_refuted : forall a o p q c, written (Two a o (Quo p q)) c -> plain_side (Quo p q) ->
  interpret c = NotAConstraint.
Proof. exact refuse_quo_right. Qed.
Theorem C60_downward_chain_refuted : forall a o b o' d c, written (Three a o b o' d) c -> ~ (o = LE /\ o' = LE) ->
  interpret c = NotAConstraint.
Proof. exact refuse3. Qed.
(** A negative fraction is refused. *)
Theorem C60_negative_fraction_refuted : interpret (list_ascii_of_string "A >= -1/2") = NotAConstraint.
Proof. vm_compute. reflexivity. Qed.

(** *** Examples. *)
Definition L := list_ascii_of_string.
Lemma num_minus3 : numeral (L "-3") (-3).
Proof.
  replace (-3) with (-1 * (digits_value [ch 51] + digits_value [] / 10 ^ length (@nil ascii)) * 1).
  { apply (decimal [ch 45] (-1) [ch 51] [] [] [] 1); try discriminate; try (now constructor).
    constructor; [|constructor]. unfold digit. rewrite cd_ch; lia. }
  cbn -[INR]. replace (INR (cd (ch 51) - 48)) with 3; [lra|]. rewrite cd_ch by lia. cbn. lra.
Qed.
Lemma num_half : numeral (L "1/2") (1 / 2).
Proof.
  replace (1 / 2) with (digits_value [ch 49] / digits_value [ch 50]).
  { apply (fraction [ch 49] [ch 50]); try discriminate; try (constructor; [|constructor]; unfold digit; rewrite cd_ch; lia).
    cbn -[INR]. rewrite cd_ch by lia. cbn. lra. }
  cbn -[INR]. rewrite !cd_ch by lia. cbn. lra.
Qed.
Lemma name_ok s : forallb is_name (L s) = true -> L s <> [] -> name_text (L s).
Proof.
  intros H N. split; auto. apply Forall_forall. intros c Hc. apply is_name_spec. now apply (proj1 (forallb_forall _ _) H).
Qed.
Lemma not_numeric s c : In c (L s) -> is_digit c = false -> c <> ch 101 -> c <> ch 69 -> ~ looks_numeric (L s).
Proof.
  intros Hc Hd N1 N2 (a & b & Fa & Fb & E). rewrite Forall_forall in Fa, Fb.
  assert (K : In c a \/ In c b).
  { destruct E as [E|[E|E]]; rewrite E in Hc; apply in_app_or in Hc as [Hc|Hc]; auto; destruct Hc; auto; congruence. }
  destruct K as [K|K]; [apply Fa in K|apply Fb in K]; apply is_digit_spec in K; congruence.
Qed.
Lemma spaces_ok s : forallb is_space (L s) = true -> spaces (L s).
Proof.
  intros H. apply Forall_forall. intros c Hc. apply is_space_spec. now apply (proj1 (forallb_forall _ _) H).
Qed.
Example C60_example_text : written (Three (Num (-3)) LE (Par "B_cost") LE (Num (1 / 2))) (L " -3 < B_cost<=1/2 ").
Proof.
  change (L " -3 < B_cost<=1/2 ") with
    (L " " ++ L "-3" ++ L " " ++ L "<" ++ L " " ++ L "B_cost" ++ [] ++ L "<=" ++ [] ++ L "1/2" ++ L " ").
  apply wr_three; try (now apply spaces_ok); try constructor; try exact num_minus3; try exact num_half.
  apply (st_par (L "B_cost")). apply name_ok; [reflexivity|discriminate].
Qed.
Example C60_example_reads : interpret (L " -3 < B_cost<=1/2 ") = Says (Fixed "B_cost" (Some (Fin (-3))) (Some (Fin (1 / 2)))).
Proof.
  assert (N : ~ looks_numeric (list_ascii_of_string "B_cost")).
  { apply (not_numeric "B_cost" (ch 66)); [now left|reflexivity| |]; intros H; apply ch_inj in H; lia. }
  apply (C60_fixed_bounds "B_cost" (-3) (1 / 2) N). exact C60_example_text.
Qed.
Example C60_example_exponent_name : interpret (L "A < E1") = BadNumber.
Proof.
  change (L "A < E1") with ([] ++ L "A" ++ L " " ++ L "<" ++ L " " ++ (ch 69 :: L "1") ++ []).
  apply (C60_exponent_name_refuted (L "A") (ch 69) (L "1") [] (L " ") (L "<") (L " ") []); auto;
    try (now apply spaces_ok); try (now constructor).
  - apply name_ok; [reflexivity|discriminate].
  - constructor; [|constructor]. apply is_digit_spec. reflexivity.
Qed.
Example C60_example_ordering : ordering_text (L "time of day > cost") = Some (Order "cost" "time of day").
Proof. vm_compute. reflexivity. Qed.
Example C60_example_two_readers : interpret (L "b2#x >= a:1") = Says (Order "a:1" "b2#x").
Proof. vm_compute. reflexivity. Qed.
Example C60_example_downward : interpret (L "1/2 > A > -3") = NotAConstraint.
Proof. vm_compute. reflexivity. Qed.
Example C60_example_right_ratio : interpret (L "1/2 < A/B") = NotAConstraint.
Proof. vm_compute. reflexivity. Qed.
