(** C73: the ordered parameter table. *)
From Coq Require Import Lra Lia Psatz.
From Verif Require Import TableModel TableSpec.
Open Scope string_scope.
Open Scope list_scope.
Open Scope nat_scope.

(** ** Sorting names *)
Lemma compare_trans : forall a b c : string, String.compare a b <> Gt -> String.compare b c <> Gt -> String.compare a c <> Gt.
Proof.
  induction a as [|x a IH]; intros b c H1 H2.
  - destruct c; discriminate.
  - destruct b as [|y b]; [cbn in H1; congruence|]. destruct c as [|z c]; [cbn in H2; congruence|]. cbn [String.compare] in *.
    unfold Ascii.compare in *.
    destruct (N.compare_spec (Ascii.N_of_ascii x) (Ascii.N_of_ascii y)) as [E|L|G]; [| |congruence].
    + rewrite E. destruct (N.compare_spec (Ascii.N_of_ascii y) (Ascii.N_of_ascii z)) as [E'|L'|G']; [eapply IH; eauto|discriminate|congruence].
    + destruct (N.compare_spec (Ascii.N_of_ascii y) (Ascii.N_of_ascii z)) as [E'|L'|G']; [| |congruence].
      * rewrite <- E'. apply N.compare_lt_iff in L. rewrite L. discriminate.
      * pose proof (N.lt_trans _ _ _ L L') as Q. apply N.compare_lt_iff in Q. rewrite Q. discriminate.
Qed.
Lemma leb_trans : forall a b c, String.leb a b = true -> String.leb b c = true -> String.leb a c = true.
Proof.
  intros a b c. unfold String.leb. intros H1 H2. pose proof (compare_trans a b c) as Q.
  destruct (String.compare a b), (String.compare b c); try discriminate; destruct (String.compare a c); try reflexivity; exfalso; apply Q; congruence.
Qed.
Lemma place_perm : forall x l, Permutation (x :: l) (place_name x l).
Proof.
  intros x l. induction l as [|y l IH]; [apply Permutation_refl|]. cbn [place_name]. destruct (String.leb x y); [apply Permutation_refl|].
  eapply Permutation_trans; [apply perm_swap|]. now constructor.
Qed.
Lemma order_perm : forall l, Permutation l (in_order l).
Proof.
  induction l as [|x l IH]; [constructor|]. cbn [in_order fold_right]. eapply Permutation_trans; [constructor; exact IH|apply place_perm].
Qed.
Lemma order_in : forall l x, In x (in_order l) <-> In x l.
Proof. intros l x. split; apply Permutation_in; [apply Permutation_sym|]; apply order_perm. Qed.
Lemma order_sorted : forall l, StronglySorted (fun a b => String.leb a b = true) (in_order l).
Proof.
  induction l as [|x l IH]; [constructor|]. cbn [in_order fold_right]. fold (in_order l). revert IH. generalize (in_order l) as r.
  induction r as [|y r IH]; intro S'; cbn [place_name]; [repeat constructor|].
  apply StronglySorted_inv in S' as [S1 S2]. destruct (String.leb x y) eqn:E.
  - constructor; [now constructor|]. constructor; [exact E|]. eapply Forall_impl; [|exact S2]. intros z Z. now apply leb_trans with y.
  - constructor; [now apply IH|]. apply Forall_forall. intros z Z.
    assert (Q : In z (x :: r)) by (eapply Permutation_in; [apply Permutation_sym, place_perm|exact Z]).
    destruct Q as [<-|Q]; [|now rewrite Forall_forall in S2; apply S2].
    destruct (String.leb_total x y); congruence.
Qed.

(** ** The loop *)
Fixpoint assign (re : string -> string -> bool) (pats : list (string * string)) (pset : list string) : list (string * string) :=
  match pats with
  | [] => map (fun p => ("Other", p)) (in_order pset)
  | cp :: r => map (fun p => (fst cp, p)) (in_order (filter (re (snd cp)) pset)) ++ assign re r (filter (fun p => negb (re (snd cp) p)) pset)
  end.
Lemma has_in : forall l x, has l x = true <-> In x l.
Proof.
  intros l x. unfold has. rewrite existsb_exists. split.
  - intros [y [H E]]. apply String.eqb_eq in E. now subst.
  - intro H. exists x. split; [exact H|apply String.eqb_refl].
Qed.
Lemma fill_ok : forall re c rest pats params pset, (forall p, In p params -> ~ In p pset) ->
  exists new, fst (fill re pats params pset) = params ++ new /\
    map (fun p => (c, p)) new ++ assign re rest (snd (fill re pats params pset)) = assign re (map (fun pat => (c, pat)) pats ++ rest) pset.
Proof.
  intros re c rest pats. induction pats as [|pat pats IH]; intros params pset D.
  - exists []. cbn. now rewrite app_nil_r.
  - cbn [fill map app assign fst snd]. set (F := in_order (filter (re pat) pset)).
    assert (E : filter (fun p => negb (has (params ++ F) p)) pset = filter (fun p => negb (re pat p)) pset).
    { apply filter_ext_in. intros p P. f_equal. destruct (has (params ++ F) p) eqn:H.
      - apply has_in in H. apply in_app_or in H as [H|H]; [now apply D in H|]. unfold F in H. apply (order_in _ p), filter_In in H as [_ H]. congruence.
      - destruct (re pat p) eqn:R; [|reflexivity]. assert (Q : has (params ++ F) p = true) by (apply has_in; apply in_or_app; right; unfold F; apply (order_in _ p), filter_In; auto). congruence. }
    rewrite E. destruct (IH (params ++ F) (filter (fun p => negb (re pat p)) pset)) as [new [N1 N2]].
    { intros p P Q. rewrite <- E in Q. apply filter_In in Q as [_ Q]. apply has_in in P. rewrite P in Q. discriminate. }
    exists (F ++ new). split; [now rewrite N1, app_assoc|]. rewrite map_app, <- app_assoc, N2. reflexivity.
Qed.
Lemma groups_ok : forall re order pset, index_of_groups (groups re order pset) = assign re (patterns order) pset.
Proof.
  intros re order. induction order as [|c order IH]; intro pset.
  - cbn [groups patterns flat_map assign]. destruct pset as [|x r]; [reflexivity|]. cbn [index_of_groups flat_map fst snd]. now rewrite app_nil_r.
  - cbn [groups]. destruct (fill_ok re (fst c) (patterns order) (snd c) [] pset) as [new [N1 N2]]; [intros p []|].
    destruct (fill re (snd c) [] pset) as [params left]. cbn [fst snd app] in N1, N2. subst params.
    cbn [index_of_groups flat_map fst snd]. fold (index_of_groups (groups re order left)). rewrite IH. exact N2.
Qed.

(** ** Where everything is *)
Definition bel (re : string -> string -> bool) (pats : list (string * string)) (p : string) (k : nat) (c : string) : Prop :=
  (exists pat, nth_error pats k = Some (c, pat) /\ re pat p = true /\
     forall k' c' pat', (k' < k)%nat -> nth_error pats k' = Some (c', pat') -> re pat' p = false) \/
  (k = length pats /\ c = "Other" /\ forall c' pat', In (c', pat') pats -> re pat' p = false).
Lemma bel_next : forall re cp pats p k c, re (snd cp) p = false -> bel re pats p k c -> bel re (cp :: pats) p (S k) c.
Proof.
  intros re [c0 pat0] pats p k c R [[pat [N [M F]]]|[K [C F]]]; cbn [snd] in R.
  - left. exists pat. split; [exact N|]. split; [exact M|]. intros [|k'] c' pat' L Q; [cbn in Q; injection Q as <- <-; exact R|].
    apply (F k' c' pat'); [lia|exact Q].
  - right. split; [cbn; now rewrite K|]. split; [exact C|]. intros c' pat' [Q|Q]; [injection Q as <- <-; exact R|eauto].
Qed.
Lemma bel_here : forall re cp pats p, re (snd cp) p = true -> bel re (cp :: pats) p 0 (fst cp).
Proof. intros re [c0 pat0] pats p R. left. exists pat0. split; [reflexivity|]. split; [exact R|]. intros k' c' pat' L. lia. Qed.
Lemma bel_unique : forall re pats p k c k' c', bel re pats p k c -> bel re pats p k' c' -> k = k' /\ c = c'.
Proof.
  intros re pats p k c k' c' [[pat [N [M F]]]|[K [C F]]] [[pat' [N' [M' F']]]|[K' [C' F']]].
  - destruct (Nat.lt_trichotomy k k') as [L|[<-|L]].
    + rewrite (F' k c pat L N) in M. discriminate.
    + rewrite N in N'. injection N' as <- _. auto.
    + rewrite (F k' c' pat' L N') in M'. discriminate.
  - apply nth_error_In in N. rewrite (F' c pat N) in M. discriminate.
  - apply nth_error_In in N'. rewrite (F c' pat' N') in M'. discriminate.
  - subst. auto.
Qed.
Definition bef re pats (p q : string) : Prop :=
  exists k c k' c', bel re pats p k c /\ bel re pats q k' c' /\ ((k < k')%nat \/ (k = k' /\ String.leb p q = true /\ p <> q)).
Lemma sorted_app : forall {A} (R : A -> A -> Prop) a b, StronglySorted R a -> StronglySorted R b -> (forall x y, In x a -> In y b -> R x y) -> StronglySorted R (a ++ b).
Proof.
  intros A R a b Sa Sb C. induction Sa as [|x a Sa IH F]; [exact Sb|]. cbn. constructor.
  - apply IH. intros; apply C; [now right|auto].
  - apply Forall_app. split; [exact F|]. apply Forall_forall. intros y Y. apply C; [now left|exact Y].
Qed.
Lemma sorted_map : forall {A B} (f : A -> B) (R : B -> B -> Prop) l, StronglySorted (fun x y => R (f x) (f y)) l -> StronglySorted R (map f l).
Proof.
  intros A B f R l H. induction H as [|x l H IH F]; cbn; constructor; [exact IH|]. apply Forall_forall. intros y Y. apply in_map_iff in Y as [z [<- Z]].
  rewrite Forall_forall in F. auto.
Qed.
Lemma sorted_strict : forall (R : string -> string -> Prop) l, NoDup l -> StronglySorted (fun a b => String.leb a b = true) l ->
  (forall a b, In a l -> In b l -> String.leb a b = true -> a <> b -> R a b) -> StronglySorted R l.
Proof.
  intros R l N H. induction H as [|x l H IH F]; intro Q; constructor.
  - apply IH; [now inversion N|]. intros; apply Q; auto; now right.
  - apply Forall_forall. intros y Y. rewrite Forall_forall in F. apply Q; auto; [now left|now right|]. intros <-. inversion N. contradiction.
Qed.
Lemma sorted_impl : forall {A} (R R' : A -> A -> Prop) l, (forall x y, In x l -> In y l -> R x y -> R' x y) -> StronglySorted R l -> StronglySorted R' l.
Proof.
  intros A R R' l Q H. induction H as [|x l H IH F]; constructor.
  - apply IH. intros; apply Q; auto; now right.
  - rewrite Forall_forall in *. intros y Y. apply Q; auto; [now left|now right].
Qed.
Lemma filter_perm : forall {A} (f : A -> bool) l, Permutation (filter f l ++ filter (fun x => negb (f x)) l) l.
Proof.
  intros A f l. induction l as [|x l IH]; [constructor|]. cbn [filter]. destruct (f x); cbn [negb].
  - cbn. now constructor.
  - apply Permutation_sym. eapply Permutation_trans; [|apply Permutation_middle]. constructor. now apply Permutation_sym.
Qed.
Lemma assign_ok : forall re pats pset, NoDup pset ->
  Permutation (map snd (assign re pats pset)) pset /\
  (forall c p, In (c, p) (assign re pats pset) -> In p pset /\ exists k, bel re pats p k c) /\
  StronglySorted (fun a b => bef re pats (snd a) (snd b)) (assign re pats pset).
Proof.
  intros re pats. induction pats as [|[c0 pat0] pats IH]; intros pset N.
  - cbn [assign]. split; [|split].
    + rewrite map_map. cbn. rewrite map_id. apply Permutation_sym, order_perm.
    + intros c p H. apply in_map_iff in H as [x [E H]]. injection E as <- <-. split; [now apply order_in|].
      exists 0. right. split; [reflexivity|]. split; [reflexivity|]. intros c' pat' [].
    + apply sorted_map. cbn [snd]. apply sorted_strict; [apply (Permutation_NoDup (order_perm pset) N)|apply order_sorted|].
      intros a b _ _ L D. exists 0, "Other", 0, "Other". split; [|split; [|right; auto]]; right; (split; [reflexivity|split; [reflexivity|intros c' pat' []]]).
  - cbn [assign fst snd]. set (yes := filter (re pat0) pset). set (no := filter (fun p => negb (re pat0 p)) pset).
    destruct (IH no (NoDup_filter _ N)) as [P [B S']]. split; [|split].
    + rewrite map_app, map_map. cbn [snd]. rewrite map_id. eapply Permutation_trans; [|apply (filter_perm (re pat0))].
      apply Permutation_app; [apply Permutation_sym, order_perm|exact P].
    + intros c p H. apply in_app_or in H as [H|H].
      * apply in_map_iff in H as [x [E H]]. injection E as <- <-. apply (order_in _ x), filter_In in H as [H R]. split; [exact H|].
        exists 0. exact (bel_here re (c0, pat0) pats x R).
      * destruct (B c p H) as [I [k K]]. unfold no in I. apply filter_In in I as [I R]. split; [exact I|]. exists (S k).
        apply bel_next; [|exact K]. cbn [snd]. now destruct (re pat0 p).
    + apply sorted_app.
      * apply sorted_map. cbn [snd]. apply sorted_strict; [apply (Permutation_NoDup (order_perm yes)), NoDup_filter, N|apply order_sorted|].
        intros a b A1 B1 L D. unfold yes in A1, B1. apply (order_in _ a), filter_In in A1 as [_ A1]. apply (order_in _ b), filter_In in B1 as [_ B1].
        exists 0, c0, 0, c0. split; [exact (bel_here re (c0, pat0) pats a A1)|]. split; [exact (bel_here re (c0, pat0) pats b B1)|]. right. auto.
      * apply (sorted_impl (fun a b => bef re pats (snd a) (snd b))); [|exact S']. intros [c1 p1] [c2 p2] I1 I2 [k [c [k' [c' [K1 [K2 K3]]]]]].
        cbn [snd] in *. destruct (B _ _ I1) as [J1 _]. destruct (B _ _ I2) as [J2 _]. unfold no in J1, J2.
        apply filter_In in J1 as [_ J1]. apply filter_In in J2 as [_ J2].
        exists (S k), c, (S k'), c'. split; [apply bel_next; [cbn; now destruct (re pat0 p1)|exact K1]|].
        split; [apply bel_next; [cbn; now destruct (re pat0 p2)|exact K2]|]. destruct K3 as [K3|[K3 K4]]; [left; lia|right; split; [lia|exact K4]].
      * intros [c1 p1] [c2 p2] I1 I2. cbn [snd]. apply in_map_iff in I1 as [x [E I1]]. injection E as <- <-.
        apply (order_in _ x), filter_In in I1 as [_ R1]. destruct (B _ _ I2) as [J2 [k K]]. unfold no in J2. apply filter_In in J2 as [_ R2].
        exists 0, c0, (S k), c2. split; [exact (bel_here re (c0, pat0) pats x R1)|]. split; [|left; lia].
        apply bel_next; [cbn; now destruct (re pat0 p2)|exact K].
Qed.
Lemma row_at_in : forall {A} (fr : list (string * A)) p v, NoDup (map fst fr) -> In (p, v) fr -> row_at fr p = Some v.
Proof.
  intros A fr p v N H. unfold row_at. induction fr as [|x fr IH]; [destruct H|]. cbn [find map] in *. inversion N as [|? ? N1 N2]; subst.
  destruct H as [->|H].
  - cbn [fst]. now rewrite String.eqb_refl.
  - destruct (String.eqb_spec (fst x) p) as [E|E]; [|now apply IH]. exfalso. apply N1. rewrite E. now apply (in_map fst fr (p, v)).
Qed.
Lemma map_row_at : forall {A} (fr : list (string * A)), NoDup (map fst fr) ->
  map (fun p => (p, row_at fr p)) (map fst fr) = map (fun r => (fst r, Some (snd r))) fr.
Proof.
  intros A fr N. rewrite map_map. apply map_ext_in. intros [p v] H. cbn [fst snd]. f_equal. now apply row_at_in.
Qed.

(** ** C73 *)
(** With categories: every parameter of the frame once, with its own row, in the category it belongs to, in the order of
    the patterns and by name within each. *)
Theorem C73_ordered_table : forall A re order (fr : list (string * A)), order <> [] -> NoDup (map fst fr) ->
  let t := pfo re order fr in
  Permutation (map snd t) (map (fun r => (fst r, Some (snd r))) fr) /\
  (forall c p v, In (c, (p, v)) t -> exists k name, c = Some name /\ belongs re order p k name) /\
  StronglySorted (fun a b => before re order (fst (snd a)) (fst (snd b))) t.
Proof.
  intros A re order fr O N. cbv zeta.
  assert (E : pfo re order fr = map (fun cp => (Some (fst cp), (snd cp, row_at fr (snd cp)))) (assign re (patterns order) (map fst fr))).
  { rewrite <- (groups_ok re order). unfold pfo. destruct order; [contradiction|]. now rewrite (nodup_fixed_point string_dec N). }
  rewrite E. destruct (assign_ok re (patterns order) (map fst fr) N) as [P [B S']]. split; [|split].
  - rewrite map_map. cbn [snd]. rewrite <- (map_row_at fr N).
    rewrite <- (map_map snd (fun p => (p, row_at fr p))). now apply Permutation_map.
  - intros c p v H. apply in_map_iff in H as [[c' p'] [Q H]]. cbn [fst snd] in Q. injection Q as <- <- _.
    destruct (B c' p' H) as [_ [k K]]. exists k, c'. split; [reflexivity|exact K].
  - apply sorted_map. cbn [fst snd]. exact S'.
Qed.
(** The place of a parameter is unique, so the theorem leaves no choice. *)
Theorem C73_one_place : forall re order p k c k' c', belongs re order p k c -> belongs re order p k' c' -> k = k' /\ c = c'.
Proof. intros re order. exact (bel_unique re (patterns order)). Qed.
(** Without categories: the frame as it is. *)
Theorem C73_no_ordering : forall A re (fr : list (string * A)), pfo re [] fr = map (fun r => (None, (fst r, Some (snd r)))) fr.
Proof. reflexivity. Qed.
(** What is set is what is shown: the categories given, but those of the tail, which come last. *)
Theorem C73_ordering : forall x tail,
  let o := ordering (Some (set_ordering x tail)) tail in let t := match tail with Some t => t | None => [] end in
  (forall c, In c o <-> In c x \/ In c t) /\ (exists h, o = h ++ t /\ (forall c, In c h -> In c x /\ ~ In c t)) /\
  (tail = None -> o = x).
Proof.
  intros x tail. cbv zeta. unfold ordering, set_ordering. set (t := match tail with Some t => t | None => [] end). split; [|split].
  - intro c. rewrite in_app_iff, filter_In. destruct (in_dec cat_eq c t) as [I|I]; [tauto|]. tauto.
  - eexists. split; [reflexivity|]. intros c H. apply filter_In in H as [H1 H2]. destruct (in_dec cat_eq c t); [discriminate|auto].
  - intro T. unfold t. rewrite T. rewrite app_nil_r. induction x as [|y x IH]; [reflexivity|]. cbn [filter].
    destruct (in_dec cat_eq y []) as [[]|_]. now rewrite IH.
Qed.
(** ** Significance marks *)
Ltac ncmp := unfold nlt, nle, dec4, nabs;
  repeat match goal with |- context [Rle_dec ?a ?b] => destruct (Rle_dec a b) end; cbn [negb].
(** A finite t statistic gets its stars, whatever the likelihood ratio; otherwise a finite likelihood ratio gets its own, in
    brackets; otherwise there is no mark. *)
Theorem C73_significance :
  (forall t lr, exists n, t_stars t n /\ signif (Some (Fin t)) lr = Some (stars n)) /\
  (forall t l, (forall x, t <> Some (Fin x)) -> exists n, lr_stars l n /\ signif t (Some (Fin l)) = Some (String.append "[" (String.append (stars n) "]"))) /\
  (forall t, (forall x, t <> Fin x) -> signif (Some t) None = Some "" /\ signif (Some t) (Some NaN) = Some "").
Proof.
  split; [|split].
  - intros t lr.
    assert (Q : exists n, t_stars t n /\ signif_t (Fin t) = stars n).
    { unfold t_stars, stars_for, signif_t, fixie. cbn [isfinite]. unfold nlt, nle, dec4, nabs. 
      assert (K : forall b, mark (match (if negb b then Big else if negb (if Rle_dec (-1000) t then true else false) then MinusBig else Number (Fin t)) with NA => true | _ => false end) "" = fun s => s)
        by (intro b; destruct b; [destruct (Rle_dec (-1000) t)|]; reflexivity). 
      destruct (Rle_dec (Rabs t) (19600 / 10000)), (Rle_dec (Rabs t) (25758 / 10000)), (Rle_dec (Rabs t) (32905 / 10000)); cbn [negb]; try lra; rewrite K; cbn [mark].
      - exists 0. split; [left; split; [reflexivity|lra]|reflexivity].
      - exists 1. split; [right; left; split; [reflexivity|lra]|reflexivity].
      - exists 2. split; [right; right; left; split; [reflexivity|lra]|reflexivity].
      - exists 3. split; [right; right; right; split; [reflexivity|lra]|reflexivity]. }
    destruct Q as [n [Q1 Q2]]. exists n. split; [exact Q1|]. unfold signif. rewrite Q2. destruct lr as [l|]; [|reflexivity].
    unfold signif_lr. cbn [isfinite negb]. rewrite !andb_false_r. reflexivity.
  - intros t l T.
    assert (Q : forall s, exists n, lr_stars l n /\ signif_lr (Fin l) true s = String.append "[" (String.append (stars n) "]")).
    { intro s. unfold lr_stars, stars_for, signif_lr. cbn [isfinite]. unfold nlt, nle, dec4.
      destruct (Rle_dec l (19207 / 10000)), (Rle_dec l (33174 / 10000)), (Rle_dec l (54138 / 10000)); cbn [negb andb mark]; try lra.
      - exists 0. split; [left; split; [reflexivity|lra]|reflexivity].
      - exists 1. split; [right; left; split; [reflexivity|lra]|reflexivity].
      - exists 2. split; [right; right; left; split; [reflexivity|lra]|reflexivity].
      - exists 3. split; [right; right; right; split; [reflexivity|lra]|reflexivity]. }
    assert (N : (match t with Some t => negb (isfinite t) | None => true end) = true).
    { destruct t as [[| |x|]|]; try reflexivity. exfalso. now apply (T x). }
    unfold signif. rewrite N.
    destruct (Q (match (match t with Some t0 => Some (signif_t t0) | None => None end) with Some s => s | None => "" end)) as [n [Q1 Q2]].
    exists n. split; [exact Q1|]. now rewrite Q2.
  - intros t T. assert (S' : signif_t t = "") by (destruct t as [| |x|]; try reflexivity; exfalso; now apply (T x)).
    unfold signif. rewrite S'. split; [reflexivity|]. destruct t as [| |x|]; try reflexivity.
Qed.
(** The two marks agree: a log likelihood ratio l gets the stars of the t statistic with t^2/2 = l, unless l is within 0.0002 of
    a critical value. *)
Theorem C73_marks_agree : forall l n, (0 <= l)%R ->
  (forall c, In c [19207; 33174; 54138]%Z -> (2/10000 < Rabs (l - IZR c / 10000))%R) ->
  (t_stars (sqrt (2 * l)) n <-> lr_stars l n).
Proof.
  intros l n P F. unfold t_stars, lr_stars, stars_for. rewrite (Rabs_right (sqrt (2 * l))) by (apply Rle_ge, sqrt_pos).
  assert (A : forall a, (0 <= a)%R -> (sqrt (2 * l) <= a <-> 2 * l <= a * a)%R).
  { intros a Ha. split; intro H.
    - rewrite <- (sqrt_sqrt (2 * l)) by lra. apply Rmult_le_compat; auto using sqrt_pos.
    - rewrite <- (sqrt_square a Ha). now apply sqrt_le_1_alt. }
  assert (B : forall a, (0 <= a)%R -> (a < sqrt (2 * l) <-> a * a < 2 * l)%R).
  { intros a Ha. specialize (A a Ha). split; intro H; [destruct (Rlt_le_dec (a * a) (2 * l)) as [Q|Q]; [exact Q|apply A in Q; lra]|].
    destruct (Rlt_le_dec a (sqrt (2 * l))) as [Q|Q]; [exact Q|apply A in Q; lra]. }
  rewrite !(A (196/100)%R), !(A (25758/10000)%R), !(A (32905/10000)%R), !(B (196/100)%R), !(B (25758/10000)%R), !(B (32905/10000)%R) by lra.
  pose proof (F 19207%Z (or_introl eq_refl)) as F1. pose proof (F 33174%Z (or_intror (or_introl eq_refl))) as F2.
  pose proof (F 54138%Z (or_intror (or_intror (or_introl eq_refl)))) as F3. clear F A B.
  unfold Rabs in F1, F2, F3.
  destruct (Rcase_abs (l - 19207 / 10000)); destruct (Rcase_abs (l - 33174 / 10000)); destruct (Rcase_abs (l - 54138 / 10000)); try lra;
    (split; intros [[E H]|[[E H]|[[E H]|[E H]]]]; subst n; try lra;
     first [left; split; [reflexivity|lra]|right; left; split; [reflexivity|lra]|right; right; left; split; [reflexivity|lra]|right; right; right; split; [reflexivity|lra]]).
Qed.

(** ** Several models *)
(** The rows of the joint table: every parameter of any of the models once, where it belongs. *)
Theorem C73_joint_rows : forall re order models, let t := joint_index re order models in
  NoDup (map snd t) /\ (forall p, In p (map snd t) <-> exists m v, In m models /\ In (p, v) (snd m)) /\
  (forall c p, In (c, p) t -> exists k, belongs re order p k c) /\
  StronglySorted (fun a b => before re order (snd a) (snd b)) t.
Proof.
  intros re order models. cbv zeta. unfold joint_index. rewrite groups_ok.
  set (l := nodup string_dec (flat_map (fun m => map fst (snd m)) models)).
  destruct (assign_ok re (patterns order) l (NoDup_nodup _ _)) as [P [B S']]. split; [|split; [|split]].
  - eapply Permutation_NoDup; [apply Permutation_sym; exact P|apply NoDup_nodup].
  - intro p. assert (Q : In p (map snd (assign re (patterns order) l)) <-> In p l)
      by (split; apply Permutation_in; [exact P|now apply Permutation_sym]). rewrite Q. unfold l. rewrite nodup_In, in_flat_map. split.
    + intros [m [M I]]. apply in_map_iff in I as [[p' v] [E I]]. cbn in E. subst p'. eauto.
    + intros [m [v [M I]]]. exists m. split; [exact M|]. now apply (in_map fst (snd m) (p, v)).
  - intros c p H. now apply B.
  - exact S'.
Qed.
Lemma cell_rows : forall (fr : list (string * string)) p s, NoDup (map fst fr) ->
  fold_left (fun s r => if String.eqb (fst r) p then snd r else s) fr s = match row_at fr p with Some v => v | None => s end.
Proof.
  induction fr as [|x fr IH]; intros p s N; [reflexivity|]. cbn [fold_left]. inversion N as [|? ? N1 N2]; subst. rewrite IH by exact N2.
  unfold row_at. cbn [find]. destruct (String.eqb_spec (fst x) p) as [E|E]; [|reflexivity].
  destruct (find (fun r => String.eqb (fst r) p) fr) as [r|] eqn:F; [|reflexivity]. apply find_some in F as [F1 F2]. apply String.eqb_eq in F2.
  exfalso. apply N1. rewrite E, <- F2. now apply in_map.
Qed.
(** Its cells, when no two models have the same title: the model's own value, and nothing for a parameter it has not. *)
Theorem C73_joint_cells : forall models title fr p, NoDup (map fst models) -> In (title, fr) models -> NoDup (map fst fr) ->
  joint_cell models title p = match row_at fr p with Some v => v | None => "" end.
Proof.
  intros models title fr p N I Nf. unfold joint_cell. generalize "" as s. induction models as [|m models IH]; [destruct I|].
  inversion N as [|? ? N1 N2]; subst. intro s. cbn [fold_left].
  assert (Out : forall l s, ~ In title (map fst l) -> fold_left (fun s (m : titled) => if String.eqb (fst m) title then
      fold_left (fun s r => if String.eqb (fst r) p then snd r else s) (snd m) s else s) l s = s).
  { induction l as [|y l IHl]; intros s0 H; [reflexivity|]. cbn [fold_left]. destruct (String.eqb_spec (fst y) title) as [E|E]; [exfalso; apply H; now left|].
    apply IHl. intro Q. apply H. now right. }
  destruct I as [->|I].
  - cbn [fst snd] in *. rewrite String.eqb_refl, Out by exact N1. now apply cell_rows.
  - destruct (String.eqb_spec (fst m) title) as [E|E]; [exfalso; apply N1; rewrite E; now apply (in_map fst models (title, fr))|]. now apply IH.
Qed.
(** Two models of the same title: both columns show the last model's values, and the first's where the last has none. *)
Theorem C73_same_title_refuted : exists models fr fr', In ("m", fr) models /\ In ("m", fr') models /\
  row_at fr "b" = Some "1" /\ joint_cell models "m" "b" = "2" /\ row_at fr' "a" = None /\ joint_cell models "m" "a" <> "".
Proof.
  exists [("m", [("a", "0"); ("b", "1")]); ("m", [("b", "2")])], [("a", "0"); ("b", "1")], [("b", "2")].
  split; [now left|]. split; [right; now left|]. repeat split; try reflexivity. discriminate.
Qed.

(** ** Cases that meet the hypotheses *)
Definition re0 (pat p : string) : bool := String.eqb pat ".*" || String.prefix pat p.
Definition order0 : list category := [("LOS", ["tot"; "c"]); ("Size", ["q"]); ("LOS", ["cost"; "t"])].
Definition frame0 : list (string * nat) := [("time", 1); ("asc", 2); ("cost", 3); ("q2", 4); ("tottime", 5); ("Q", 6); ("q1", 7)].
Example ordered0 : pfo re0 order0 frame0 =
  [(Some "LOS", ("tottime", Some 5)); (Some "LOS", ("cost", Some 3)); (Some "Size", ("q1", Some 7)); (Some "Size", ("q2", Some 4));
   (Some "LOS", ("time", Some 1)); (Some "Other", ("Q", Some 6)); (Some "Other", ("asc", Some 2))] /\ NoDup (map fst frame0) /\ order0 <> [].
Proof. split; [reflexivity|]. split; [|discriminate]. cbn. repeat constructor; cbn; intuition discriminate. Qed.
Example ordering0 : ordering (Some (set_ordering order0 (Some [("Size", ["q"]); ("Z", [])]))) (Some [("Size", ["q"]); ("Z", [])]) =
  [("LOS", ["tot"; "c"]); ("LOS", ["cost"; "t"]); ("Size", ["q"]); ("Z", [])].
Proof. reflexivity. Qed.
Example marks0 : t_stars (-2) 1 /\ (exists s, signif (Some (Fin (-2))) None = Some s) /\ lr_stars 4 2 /\ (forall x, Some PInf <> Some (Fin x)) /\
  (forall c, In c [19207; 33174; 54138]%Z -> (2/10000 < Rabs (4 - IZR c / 10000))%R).
Proof.
  split; [right; left; split; [reflexivity|]; rewrite Rabs_left by lra; lra|]. split; [eexists; reflexivity|].
  split; [right; right; left; split; [reflexivity|lra]|]. split; [discriminate|].
  intros c [<-|[<-|[<-|[]]]]; unfold Rabs; destruct (Rcase_abs _); lra.
Qed.
Example joint0 : joint_index re0 [("Parameters", [".*"])] [("m", [("b", "1")]); ("n", [("b", "2"); ("a", "3")])] = [("Parameters", "a"); ("Parameters", "b")] /\
  joint_cell [("m", [("b", "1")]); ("n", [("b", "2"); ("a", "3")])] "m" "a" = "" /\ joint_cell [("m", [("b", "1")]); ("n", [("b", "2"); ("a", "3")])] "n" "b" = "2".
Proof. repeat split. Qed.
