From Verif Require Import TouchModel TouchSpec.
Open Scope string_scope.
Open Scope list_scope.

(** ** Lookups *)
Lemma row_cons : forall x fr n, row (x :: fr) n = if String.eqb (fst x) n then Some (snd x) else row fr n.
Proof. intros x fr n. unfold row. cbn [find]. destruct (String.eqb (fst x) n); reflexivity. Qed.
Lemma leb_refl : forall s, String.leb s s = true.
Proof.
  intro s. unfold String.leb.
  assert (H : String.compare s s = Eq).
  { induction s as [|c s IH]; [reflexivity|]. cbn. unfold Ascii.compare. now rewrite N.compare_refl. }
  now rewrite H.
Qed.
Lemma row_insert : forall x fr n, row (insert_by fst x fr) n = row (x :: fr) n.
Proof.
  intros x fr n. induction fr as [|y fr IH]; [reflexivity|]. cbn [insert_by].
  destruct (String.leb (fst x) (fst y)) eqn:E; [reflexivity|].
  rewrite row_cons, IH, !row_cons.
  destruct (String.eqb_spec (fst y) n) as [Ey|Ey]; destruct (String.eqb_spec (fst x) n) as [Ex|Ex]; try reflexivity.
  rewrite Ex, Ey, leb_refl in E. discriminate.
Qed.
Lemma row_sort : forall fr n, row (sort_by fst fr) n = row fr n.
Proof.
  intros fr n. induction fr as [|x fr IH]; [reflexivity|]. unfold sort_by in *. cbn [fold_right].
  rewrite row_insert, !row_cons, IH. reflexivity.
Qed.
Lemma row_app : forall a b n, row (a ++ b) n = match row a n with Some v => Some v | None => row b n end.
Proof.
  intros a b n. induction a as [|x a IH]; [reflexivity|]. cbn [app]. rewrite !row_cons, IH.
  destruct (String.eqb (fst x) n); reflexivity.
Qed.
Lemma row_some_in : forall fr n, row fr n <> None <-> In n (map fst fr).
Proof.
  intros fr n. induction fr as [|x fr IH]; [cbn; tauto|]. rewrite row_cons. cbn [map In].
  destruct (String.eqb_spec (fst x) n) as [E|E]; [split; [now left|discriminate]|].
  rewrite IH. tauto.
Qed.
Lemma row_none : forall fr n, row fr n = None <-> ~ In n (map fst fr).
Proof.
  intros fr n. rewrite <- row_some_in. destruct (row fr n); split; intro H; try tauto; try discriminate.
Qed.
Lemma existsb_names : forall n l, existsb (String.eqb n) l = true <-> In n l.
Proof.
  intros n l. rewrite existsb_exists. split; [intros [x [Hx E]]|intro H; exists n; split; [auto|apply String.eqb_refl]].
  apply String.eqb_eq in E. now subst.
Qed.
Lemma row_const : forall l v n, row (map (fun n => (n, v)) l) n = if in_dec string_dec n l then Some v else None.
Proof.
  intros l v n. destruct (in_dec string_dec n l) as [H|H].
  - induction l as [|x l IH]; [destruct H|]. cbn [map]. rewrite row_cons. cbn [fst snd].
    destruct (String.eqb_spec x n) as [E|E]; [reflexivity|]. apply IH. destruct H; [congruence|auto].
  - apply row_none. rewrite map_map. cbn [fst]. now rewrite map_id.
Qed.
Lemma row_ensure : forall names v fr n, row (ensure names v fr) n =
  match row fr n with Some x => Some x | None => if in_dec string_dec n names then Some v else None end.
Proof.
  intros names v fr n. unfold ensure. rewrite row_app, row_const.
  destruct (row fr n) as [x|] eqn:E; [reflexivity|]. apply row_none in E.
  destruct (in_dec string_dec n names) as [H|H]; destruct (in_dec string_dec n _) as [H'|H']; try reflexivity; exfalso.
  - apply H'. apply filter_In. split; [now apply nodup_In|].
    destruct (existsb (String.eqb n) (map fst fr)) eqn:X; [apply existsb_names in X; contradiction|reflexivity].
  - apply filter_In in H' as [H' _]. now apply nodup_In in H'.
Qed.
Lemma in_utility_spec : forall w m n, in_utility w m n = true <-> In n (utility_names w m).
Proof.
  intros w m n. unfold in_utility, utility_names, ca_terms, q_terms, co_terms. rewrite existsb_exists. split.
  - intros [c [H E]]. apply String.eqb_eq in E. subst n. rewrite !in_app_iff in H. rewrite !in_app_iff.
    destruct H as [H|[H|H]].
    + right; left. now apply in_map.
    + right; right. now apply in_map.
    + left. apply in_flat_map in H as [kr [H1 H2]]. apply in_map_iff. exists (fst kr, c). split; [reflexivity|].
      apply in_flat_map. exists kr. split; [auto|]. apply in_map_iff. exists c. auto.
  - intro H. rewrite !in_app_iff in H. destruct H as [H|[H|H]].
    + apply in_map_iff in H as [kc [E H]]. apply in_flat_map in H as [kr [H1 H2]].
      apply in_map_iff in H2 as [c [E' H2]]. subst kc. cbn in E. exists c. split; [|now apply String.eqb_eq].
      rewrite !in_app_iff. right; right. apply in_flat_map. eauto.
    + apply in_map_iff in H as [c [E H]]. exists c. split; [|now apply String.eqb_eq]. rewrite !in_app_iff. tauto.
    + apply in_map_iff in H as [c [E H]]. exists c. split; [|now apply String.eqb_eq]. rewrite !in_app_iff. tauto.
Qed.
Lemma in_scale_spec : forall w m n, in_scale w m n = true <-> In n (logsum_names w m).
Proof.
  intros w m n. unfold in_scale, logsum_names, q_terms. rewrite !orb_true_iff, !in_app_iff, existsb_exists.
  assert (A : (exists x, In x (g_nests (m_graph m)) /\ String.eqb (match snd x with Some p => p | None => "None" end) n = true) <->
              In n (map (fun n => match snd n with Some p => p | None => "None" end) (g_nests (m_graph m)))).
  { rewrite in_map_iff. split; intros [x [H1 H2]]; exists x; [apply String.eqb_eq in H2|]; split; auto. now apply String.eqb_eq. }
  rewrite A.
  assert (B : match f_terms (w_f w (m_qca m)), m_qs m with _ :: _, Some s => String.eqb s n | _, _ => false end = true <->
    In n (match f_terms (w_f w (m_qca m)), m_qs m with _ :: _, Some s => [s] | _, _ => [] end)).
  { destruct (f_terms (w_f w (m_qca m))), (m_qs m); cbn; try (split; [discriminate|tauto]).
    rewrite String.eqb_eq. split; [auto|tauto]. }
  rewrite B.
  assert (C : match m_ls m with Some s => String.eqb s n | None => false end = true <->
    In n (match m_ls m with Some s => [s] | None => [] end)).
  { destruct (m_ls m); cbn; try (split; [discriminate|tauto]). rewrite String.eqb_eq. split; [auto|tauto]. }
  rewrite C. tauto.
Qed.
Lemma in_dec_bool : forall (A : Type) n l (b : bool) (x y : A), (b = true <-> In n l) ->
  (if in_dec string_dec n l then x else y) = if b then x else y.
Proof. intros A n l b x y H. destruct (in_dec string_dec n l), b; try reflexivity; exfalso; [|apply n0]; intuition discriminate. Qed.
(** After a scan every name has its value. *)
Lemma row_scan : forall w m n, row (scan w m) n = named w m n.
Proof.
  intros w m n. unfold scan. rewrite row_sort, !row_ensure. unfold named. destruct (row (m_frame m) n) as [v|]; [reflexivity|].
  rewrite (in_dec_bool _ n (utility_names w m) (in_utility w m n)) by apply in_utility_spec.
  destruct (in_utility w m n); [reflexivity|].
  now rewrite (in_dec_bool _ n (logsum_names w m) (in_scale w m n)) by apply in_scale_spec.
Qed.

(** ** Positions *)
Lemma index_row : forall fr n, match index_of n (map fst fr) with Some p => nth_error (map snd fr) p | None => None end = row fr n.
Proof.
  intros fr n. induction fr as [|x fr IH]; [reflexivity|]. cbn [map index_of]. rewrite row_cons.
  destruct (string_dec (fst x) n) as [E|E].
  - rewrite E, String.eqb_refl. reflexivity.
  - destruct (String.eqb_spec (fst x) n) as [E'|_]; [contradiction|].
    rewrite <- IH. destruct (index_of n (map fst fr)); reflexivity.
Qed.
Lemma index_in : forall n l, In n l -> exists p, index_of n l = Some p /\ nth_error l p = Some n.
Proof.
  intros n l. induction l as [|x l IH]; [intros []|]. intro H. cbn [index_of].
  destruct (string_dec x n) as [E|E]; [exists 0; subst; auto|]. destruct H as [H|H]; [contradiction|].
  destruct (IH H) as [p [H1 H2]]. rewrite H1. exists (S p). auto.
Qed.
Lemma index_app : forall n l l', In n l -> index_of n (l ++ l') = index_of n l.
Proof.
  intros n l l'. induction l as [|x l IH]; [intros []|]. intro H. cbn [index_of app].
  destruct (string_dec x n) as [E|E]; [reflexivity|]. destruct H as [H|H]; [contradiction|]. now rewrite IH.
Qed.
Lemma index_Z : forall k l, index_of_Z k l = if existsb (fun a => (a =? k)%Z) l then Some (place k l) else None.
Proof.
  intros k l. induction l as [|x l IH]; [reflexivity|]. cbn [index_of_Z existsb place].
  destruct (x =? k)%Z; [reflexivity|]. rewrite IH. cbn [orb]. destruct (existsb _ l); reflexivity.
Qed.
Lemma in_insert_by : forall x y l, In y (insert_by (fun s : string => s) x l) <-> y = x \/ In y l.
Proof.
  intros x y l. induction l as [|z l IH]; [cbn; split; [intros [<-|[]]; auto|intros [->|[]]; auto]|].
  cbn [insert_by]. destruct (String.leb x z); cbn [In]; [split; [intros [<-|H]; auto|intros [->|H]; auto]|].
  rewrite IH. tauto.
Qed.
Lemma in_sorted_set : forall y l, In y (sorted_set l) <-> In y l.
Proof.
  intros y l. unfold sorted_set. rewrite <- (nodup_In string_dec l y). generalize (nodup string_dec l). clear l. intro l.
  unfold sort_by. induction l as [|x l IH]; [reflexivity|]. cbn [fold_right In]. rewrite in_insert_by, IH. split; intros [H|H]; auto.
Qed.
Lemma all_some_map : forall {A B} (f : A -> option B) (g : A -> B) l, (forall x, In x l -> f x = Some (g x)) -> all_some (map f l) = Some (map g l).
Proof.
  intros A B f g l H. induction l as [|x l IH]; [reflexivity|]. cbn [map all_some]. rewrite (H x) by (left; auto).
  rewrite IH; [reflexivity|]. intros y Hy. apply H. now right.
Qed.
Lemma all_some_none : forall {A B} (f : A -> option B) l x, In x l -> f x = None -> all_some (map f l) = None.
Proof.
  intros A B f l x H E. induction l as [|y l IH]; [destruct H|]. cbn [map all_some]. destruct H as [->|H]; [now rewrite E|].
  rewrite (IH H). destruct (f y); reflexivity.
Qed.

(** ** Loading *)
Lemma truthy_text : forall s, truthy s = text s.
Proof. intros [x|]; [|reflexivity]. unfold truthy, text. destruct x; reflexivity. Qed.
(** The dataset that the settings ask for. *)
Definition direct (w : world) (m : mst) (t : tree) : option dset :=
  let cols := option_map (map (fun v => (v, t_col t v))) in
  let ch := match need_ch m with
            | NNone => Some None
            | NAny => None
            | _ => match chosen m t with Some c => Some (Some c) | None => None end
            end in
  match ch with
  | None => None
  | Some ch => if any_available m then None
               else Some (mkD (alternatives m t) (cols (need_co w m)) (cols (need_ca w m)) ch (weighted m t) (available m t) (m_type m))
  end.
Definition clearf (w : world) (m : mst) (t : tree) (fl : string -> option flow) : Prop :=
  forall key tag defs f, asked w m t key = Some (tag, defs) -> fl key = Some f ->
    fl_name f = flow_name tag defs (t_feat t) -> fl_defs f = defs.
Lemma get_flow_ok : forall w m t fl key tag defs, clearf w m t fl -> asked w m t key = Some (tag, defs) ->
  fl_defs (get_flow fl key tag defs (t_feat t)) = defs /\
  clearf w m t (put_flow fl key (get_flow fl key tag defs (t_feat t))).
Proof.
  intros w m t fl key tag defs C A.
  assert (E : fl_defs (get_flow fl key tag defs (t_feat t)) = defs).
  { unfold get_flow. destruct (fl key) as [f|] eqn:F; [|reflexivity].
    destruct (string_dec _ (fl_name f)) as [N|N]; [|reflexivity]. eapply C; eauto. }
  split; [exact E|]. intros k tg d f A' F N. unfold put_flow in F. destruct (string_dec k key) as [->|K]; [|eapply C; eauto].
  injection F as <-. rewrite A in A'. injection A' as <- <-. exact E.
Qed.
Lemma load_all : forall t f defs, fl_defs f = defs -> load t f (length defs) = Some (map (fun d => t_col t (snd d)) defs).
Proof. intros t f defs E. unfold load. rewrite E, Nat.eqb_refl. reflexivity. Qed.
Lemma combine_map : forall {A B} (g : A -> B) l, combine l (map g l) = map (fun x => (x, g x)) l.
Proof. intros A B g l. induction l as [|x l IH]; [reflexivity|]. cbn. now rewrite IH. Qed.
Lemma load_vars_ok : forall w m t fl key vars, clearf w m t fl -> asked w m t key = Some (key, map (fun v => (v, v)) vars) ->
  fst (load_vars t fl key vars) = Some (map (fun v => (v, t_col t v)) vars) /\ clearf w m t (snd (load_vars t fl key vars)).
Proof.
  intros w m t fl key vars C A. unfold load_vars. destruct (get_flow_ok w m t fl key key _ C A) as [E C'].
  cbn [fst snd]. split; [|exact C'].
  replace (length vars) with (length (map (fun v : string => (v, v)) vars)) by apply map_length.
  rewrite (load_all t _ _ E), map_map. cbn [snd]. now rewrite combine_map.
Qed.
Lemma load_var_ok : forall w m t fl key tag (direct : bool) v, clearf w m t fl ->
  asked w m t key = (if direct && t_var t v then None else Some (tag, [(v, v)])) ->
  fst (load_var t fl key tag direct v) = Some (t_col t v) /\ clearf w m t (snd (load_var t fl key tag direct v)).
Proof.
  intros w m t fl key tag d v C A. unfold load_var. destruct (d && t_var t v) eqn:D; [split; auto|].
  destruct (get_flow_ok w m t fl key tag _ C A) as [E C']. cbn [fst snd]. split; [|exact C'].
  change 1 with (length [(v, v)]). rewrite (load_all t _ _ E). reflexivity.
Qed.
Lemma dict_get_find : forall l k, dict_get l k = match find (fun kv => (fst kv =? k)%Z) l with Some kv => Some (snd kv) | None => None end.
Proof. reflexivity. Qed.
Lemma find_existsb : forall {A} (f : A -> bool) l, existsb f l = match find f l with Some _ => true | None => false end.
Proof. intros A f l. induction l as [|x l IH]; [reflexivity|]. cbn. destruct (f x); auto. Qed.
Lemma choice_cols : forall l t alts,
  match all_some (map (dict_get l) alts) with Some es => Some (map (t_col t) es) | None => None end =
  (if forallb (fun a => existsb (fun kv => (fst kv =? a)%Z) l) alts
   then Some (map (fun a => match find (fun kv => (fst kv =? a)%Z) l with Some kv => t_col t (snd kv) | None => t_col t "" end) alts)
   else None).
Proof.
  intros l t alts. induction alts as [|a alts IH]; [reflexivity|]. cbn [map all_some forallb].
  rewrite dict_get_find, find_existsb. destruct (find _ l) as [kv|] eqn:F; [|reflexivity]. cbn [andb].
  destruct (all_some (map (dict_get l) alts)), (forallb _ alts); try discriminate; [|reflexivity].
  injection IH as IH. cbn [map]. now rewrite IH.
Qed.
Lemma need_av_asked : forall m, need_av m =
  match text (m_av m) with Some v => NVar v | None => match dict (m_avco m) with Some l => NMap l | None => if m_avany m then NAny else NNone end end.
Proof. intro m. unfold need_av. rewrite truthy_text. destruct (text (m_av m)); [reflexivity|]. destruct (m_avco m) as [[|]|]; reflexivity. Qed.
Lemma need_ch_asked : forall m, need_ch m =
  match text (m_cca m) with Some v => NVar v | None =>
    match dict (m_cco m) with Some l => NMap l | None =>
      match text (m_ccode m) with Some v => NCode v | None => if m_cany m then NAny else NNone end end end.
Proof.
  intro m. unfold need_ch. rewrite !truthy_text. destruct (text (m_cca m)); [reflexivity|].
  destruct (m_cco m) as [[|]|]; reflexivity.
Qed.
Lemma dict_some : forall l x, dict l = Some x -> l = Some x.
Proof. intros [[|y l]|] x; cbn; congruence. Qed.
(** Loading with clear flows gives what the settings ask for. *)
Lemma prepare_ok : forall w m t fl, clearf w m t fl ->
  fst (prepare w m t fl) = direct w m t /\ clearf w m t (snd (prepare w m t fl)).
Proof.
  intros w m t fl0 C0. unfold prepare. fold (alternatives m t).
  (* co *)
  remember (match need_co w m with
            | None => (Some None, fl0)
            | Some l => let (r, f) := load_vars t fl0 "co" l in (match r with Some x => Some (Some x) | None => None end, f)
            end) as P1 eqn:E1.
  assert (H1 : fst P1 = Some (option_map (map (fun v => (v, t_col t v))) (need_co w m)) /\ clearf w m t (snd P1)).
  { subst P1. destruct (need_co w m) as [l|] eqn:N; [|split; auto].
    assert (A : asked w m t "co" = Some ("co", map (fun v => (v, v)) l)) by (unfold asked; cbn [String.eqb]; rewrite N; reflexivity).
    destruct (load_vars_ok w m t fl0 "co" l C0 A) as [L C]. destruct (load_vars t fl0 "co" l) as [r f]. cbn [fst snd] in *.
    rewrite L. split; auto. }
  clear E1. destruct P1 as [co fl1]. cbn [fst snd] in H1. destruct H1 as [-> C1]. cbv iota beta.
  (* ca *)
  remember (match need_ca w m with
            | None => (Some None, fl1)
            | Some l => let (r, f) := load_vars t fl1 "ca" l in (match r with Some x => Some (Some x) | None => None end, f)
            end) as P2 eqn:E2.
  assert (H2 : fst P2 = Some (option_map (map (fun v => (v, t_col t v))) (need_ca w m)) /\ clearf w m t (snd P2)).
  { subst P2. destruct (need_ca w m) as [l|] eqn:N; [|split; auto].
    assert (A : asked w m t "ca" = Some ("ca", map (fun v => (v, v)) l)) by (unfold asked; cbn; rewrite N; reflexivity).
    destruct (load_vars_ok w m t fl1 "ca" l C1 A) as [L C]. destruct (load_vars t fl1 "ca" l) as [r f]. cbn [fst snd] in *.
    rewrite L. split; auto. }
  clear E2. destruct P2 as [ca fl2]. cbn [fst snd] in H2. destruct H2 as [-> C2]. cbv iota beta.
  (* choice *)
  match goal with |- context [let (ch, fl3) := ?P in _] => remember P as P3 eqn:E3 end.
  assert (H3 : fst P3 = match need_ch m with
            | NNone => Some None
            | NAny => None
            | _ => match chosen m t with Some c => Some (Some c) | None => None end
            end /\ clearf w m t (snd P3)).
  { subst P3. unfold chosen. rewrite need_ch_asked.
    destruct (text (m_cca m)) as [v|] eqn:N.
    - assert (A : asked w m t "choice_ca" = (if true && t_var t v then None else Some ("ch", [(v, v)])))
        by (unfold asked; cbn; rewrite N; reflexivity).
      destruct (load_var_ok w m t fl2 "choice_ca" "ch" true v C2 A) as [L C].
      destruct (load_var t fl2 "choice_ca" "ch" true v) as [r f]. cbn [fst snd] in *. rewrite L. split; auto.
    - destruct (dict (m_cco m)) as [l|].
      + cbn [fst snd]. split; [|exact C2].
        pose proof (choice_cols l t (alternatives m t)) as Q.
        destruct (all_some (map (dict_get l) (alternatives m t))), (forallb _ (alternatives m t)); try discriminate; [|reflexivity].
        injection Q as Q. now rewrite Q.
      + destruct (text (m_ccode m)); [split; auto|]. destruct (m_cany m); split; auto. }
  clear E3. destruct P3 as [ch fl3]. cbn [fst snd] in H3. destruct H3 as [E3 C3].
  unfold direct. rewrite <- E3. destruct ch as [ch|]; [|split; auto]. cbv iota beta.
  (* weight *)
  match goal with |- context [let (wt, fl4) := ?P in _] => remember P as P4 eqn:E4 end.
  assert (H4 : fst P4 = Some (weighted m t) /\ clearf w m t (snd P4)).
  { subst P4. unfold weighted. rewrite truthy_text. destruct (text (m_wt m)) as [v|] eqn:N; [|split; auto].
    assert (A : asked w m t "weight_co" = (if false && t_var t v then None else Some ("wt", [(v, v)])))
      by (unfold asked; cbn; rewrite N; reflexivity).
    destruct (load_var_ok w m t fl3 "weight_co" "wt" false v C3 A) as [L C].
    destruct (load_var t fl3 "weight_co" "wt" false v) as [r f]. cbn [fst snd] in *. rewrite L. split; auto. }
  clear E4. destruct P4 as [wt fl4]. cbn [fst snd] in H4. destruct H4 as [-> C4]. cbv iota beta.
  (* availability *)
  match goal with |- context [let (av, fl5) := ?P in _] => remember P as P5 eqn:E5 end.
  assert (H5 : fst P5 = (if any_available m then None else Some (available m t)) /\ clearf w m t (snd P5)).
  { subst P5. unfold any_available, available. rewrite need_av_asked.
    destruct (text (m_av m)) as [v|] eqn:N.
    - assert (A : asked w m t "avail_ca" = (if true && t_var t v then None else Some ("av", [(v, v)])))
        by (unfold asked; cbn; rewrite N; reflexivity).
      destruct (load_var_ok w m t fl4 "avail_ca" "av" true v C4 A) as [L C].
      destruct (load_var t fl4 "avail_ca" "av" true v) as [r f]. cbn [fst snd] in *. rewrite L. split; auto.
    - destruct (dict (m_avco m)) as [l|] eqn:D.
      + set (defs := map (fun a => (code_text a, match dict_get l a with Some e => e | None => "0" end)) (alternatives m t)).
        assert (Q : defs = map (fun a => (code_text a, match find (fun kv => (fst kv =? a)%Z) l with Some kv => snd kv | None => "0" end))
                      (alternatives m t)).
        { unfold defs. apply map_ext. intro a. rewrite dict_get_find. destruct (find _ l); reflexivity. }
        assert (A : asked w m t "avail_co" = Some ("av", defs)) by (unfold asked; cbn; rewrite N, D, Q; reflexivity).
        destruct (get_flow_ok w m t fl4 "avail_co" "av" defs C4 A) as [E C]. cbn [fst snd]. split; [|exact C].
        replace (length (alternatives m t)) with (length defs) by apply map_length.
        rewrite (load_all t _ _ E). unfold defs. rewrite map_map. cbn [snd]. rewrite combine_map. do 3 f_equal. apply map_ext.
        intro a. rewrite dict_get_find. destruct (find _ l); reflexivity.
      + destruct (m_avany m); split; auto. }
  clear E5. destruct P5 as [av fl5]. cbn [fst snd] in H5. destruct H5 as [-> C5].
  destruct (any_available m); split; auto.
Qed.

(** ** Compiling *)
Definition covered (w : world) (m : mst) : Prop :=
  forall n, in_utility w m n = true \/ in_scale w m n = true -> row (m_frame m) n <> None.
Lemma named_row : forall w m n, covered w m -> named w m n = row (m_frame m) n.
Proof.
  intros w m n C. unfold named. destruct (row (m_frame m) n) eqn:E; [reflexivity|].
  destruct (in_utility w m n) eqn:U; [exfalso; eapply C; eauto|].
  destruct (in_scale w m n) eqn:S'; [exfalso; eapply C; eauto|]. reflexivity.
Qed.
Lemma index_named : forall w m n, covered w m ->
  match index_of n (map fst (m_frame m)) with Some p => nth_error (map snd (m_frame m)) p | None => None end = named w m n.
Proof. intros w m n C. rewrite index_row. symmetry. now apply named_row. Qed.
Lemma index_found : forall fr n v, row fr n = Some v ->
  exists p, index_of n (map fst fr) = Some p /\ nth_error (map snd fr) p = Some v.
Proof.
  intros fr n v H. assert (I : In n (map fst fr)) by (apply row_some_in; congruence).
  destruct (index_in _ _ I) as [p [E _]]. exists p. split; [exact E|]. rewrite <- H, <- index_row, E. reflexivity.
Qed.
Definition opt_list {A} (l : option (list A)) : list A := match l with Some x => x | None => [] end.
Lemma slots_ca_ok : forall w m t vars l, covered w m ->
  (forall c, In c l -> in_utility w m (c_par c) = true) -> (forall c, In c l -> In (c_data c) vars) ->
  exists s, slots_ca (map fst (m_frame m)) vars l = Some s /\
    map (fun x => match x with (sc, p, d) => (sc, nth_error (map snd (m_frame m)) p, nth_error (map (t_col t) vars) d) end) s =
    map (fun c => (c_scale c, named w m (c_par c), Some (t_col t (c_data c)))) l.
Proof.
  intros w m t vars l C P D. induction l as [|c l IH].
  - exists []. split; reflexivity.
  - destruct IH as [s [E M]]; [intros; apply P; now right|intros; apply D; now right|].
    assert (U : in_utility w m (c_par c) = true) by (apply P; now left).
    assert (V : In (c_data c) vars) by (apply D; now left).
    destruct (row (m_frame m) (c_par c)) as [v|] eqn:Rw; [|exfalso; exact (C _ (or_introl U) Rw)].
    destruct (index_found _ _ _ Rw) as [p [Ip Np]]. destruct (index_in _ _ V) as [d [Id Nd]].
    unfold slots_ca in *. cbn [map all_some]. rewrite Ip, Id, E.
    exists ((c_scale c, p, d) :: s). split; [reflexivity|]. cbn [map]. rewrite M. f_equal.
    rewrite (named_row w m _ C), Rw, Np. rewrite nth_error_map, Nd. reflexivity.
Qed.
Lemma slots_co_ok : forall w m t alts vars l, covered w m ->
  (forall kc, In kc l -> in_utility w m (c_par (snd kc)) = true) ->
  (forall kc, In kc l -> c_data (snd kc) <> "1" -> In (c_data (snd kc)) vars) ->
  (forall kc, In kc l -> existsb (fun a => (a =? fst kc)%Z) alts = true) ->
  exists s, slots_co alts (map fst (m_frame m)) vars l = Some s /\
    map (fun x => match x with (k, sc, p, d) => (k, sc, nth_error (map snd (m_frame m)) p,
           match d with Some j => Some (nth_error (map (t_col t) vars) j) | None => None end) end) s =
    map (fun kc => (place (fst kc) alts, c_scale (snd kc), named w m (c_par (snd kc)),
                    if String.eqb (c_data (snd kc)) "1" then None else Some (Some (t_col t (c_data (snd kc)))))) l.
Proof.
  intros w m t alts vars l C P D A. induction l as [|c l IH].
  - exists []. split; reflexivity.
  - destruct IH as [s [E M]]; [intros; apply P; now right|intros; apply D; [now right|auto]|intros; apply A; now right|].
    assert (U : in_utility w m (c_par (snd c)) = true) by (apply P; now left).
    destruct (row (m_frame m) (c_par (snd c))) as [v|] eqn:Rw; [|exfalso; exact (C _ (or_introl U) Rw)].
    destruct (index_found _ _ _ Rw) as [p [Ip Np]].
    unfold slots_co in *. cbn [map all_some]. rewrite Ip, index_Z, (A c) by now left.
    destruct (String.eqb_spec (c_data (snd c)) "1") as [One|One].
    + rewrite E. eexists. split; [reflexivity|]. cbn [map]. rewrite M. f_equal.
      rewrite (named_row w m _ C), Rw, Np. reflexivity.
    + destruct (index_in (c_data (snd c)) vars) as [d [Id Nd]]; [apply D; [now left|auto]|].
      rewrite Id, E. eexists. split; [reflexivity|]. cbn [map]. rewrite M. f_equal.
      rewrite (named_row w m _ C), Rw, Np. rewrite nth_error_map, Nd. reflexivity.
Qed.
Definition wanted_at (w : world) (m : mst) (t : tree) : option given :=
    let by_name c := (c_scale c, named w m (c_par c), Some (t_col t (c_data c))) in
    match chosen m t with
    | None => None
    | Some ch =>
      if any_available m then None
      else if negb (forallb (fun kr => existsb (fun a => (a =? fst kr)%Z) (alternatives m t)) (m_uco m)) then None
      else if match text (m_qs m) with Some s => match named w m s with None => true | Some _ => false end | None => false end then None
      else Some (mkGiven
        (map by_name (f_terms (w_f w (m_uca m)))) (map by_name (f_terms (w_f w (m_qca m))))
        (match text (m_qs m) with Some s => Some (named w m s) | None => None end)
        (flat_map (fun kr => map (fun c => (place (fst kr) (alternatives m t), c_scale c, named w m (c_par c),
                                            if String.eqb (c_data c) "1" then None else Some (Some (t_col t (c_data c)))))
                                 (f_terms (w_f w (snd kr)))) (m_uco m))
        (map (fun n => match snd n with Some p => Some (named w m p) | None => None end) (g_nests (m_graph m)))
        (g_edges (m_graph m)) (Some ch) (weighted m t) (available m t) (m_graph m) (m_type m) [])
    end.
Lemma wanted_unfold : forall w i, wanted w i = match m_tree (w_m w i) with None => None | Some t => wanted_at w (w_m w i) (w_t w t) end.
Proof. reflexivity. Qed.
Lemma map_flat_map : forall {A B C} (f : B -> C) (g : A -> list B) l, map f (flat_map g l) = flat_map (fun x => map f (g x)) l.
Proof. intros A B C f g l. induction l as [|x l IH]; [reflexivity|]. cbn. now rewrite map_app, IH. Qed.
Lemma flat_map_ext' : forall {A B} (f g : A -> list B) l, (forall x, f x = g x) -> flat_map f l = flat_map g l.
Proof. intros A B f g l H. induction l as [|x l IH]; [reflexivity|]. cbn. now rewrite H, IH. Qed.
Lemma direct_none : forall w m t, direct w m t = None -> wanted_at w m t = None.
Proof.
  intros w m t H. unfold direct in H. unfold wanted_at.
  destruct (chosen m t) as [c|] eqn:E; [|reflexivity]. rewrite need_ch_asked in H.
  unfold chosen in E.
  destruct (text (m_cca m)); [destruct (any_available m); [reflexivity|discriminate]|].
  destruct (dict (m_cco m)); [destruct (any_available m); [reflexivity|discriminate]|].
  destruct (text (m_ccode m)); [destruct (any_available m); [reflexivity|discriminate]|discriminate].
Qed.
Lemma direct_ch : forall w m t d, direct w m t = Some d -> d_ch d = chosen m t.
Proof.
  intros w m t d H. unfold direct in H. rewrite need_ch_asked in H.
  destruct (text (m_cca m)) eqn:E1.
  { destruct (chosen m t) eqn:C; [|discriminate]. destruct (any_available m); [discriminate|]. injection H as <-. reflexivity. }
  destruct (dict (m_cco m)) eqn:E2.
  { destruct (chosen m t) eqn:C; [|discriminate]. destruct (any_available m); [discriminate|]. injection H as <-. reflexivity. }
  destruct (text (m_ccode m)) eqn:E3.
  { destruct (chosen m t) eqn:C; [|discriminate]. destruct (any_available m); [discriminate|]. injection H as <-. reflexivity. }
  destruct (m_cany m); [discriminate|]. destruct (any_available m); [discriminate|]. injection H as <-. cbn [d_ch].
  unfold chosen. now rewrite E1, E2, E3.
Qed.
Lemma direct_rest : forall w m t d, direct w m t = Some d ->
  any_available m = false /\ d_alts d = alternatives m t /\ d_co d = option_map (map (fun v => (v, t_col t v))) (need_co w m) /\
  d_ca d = option_map (map (fun v => (v, t_col t v))) (need_ca w m) /\ d_wt d = weighted m t /\ d_av d = available m t /\ d_type d = m_type m.
Proof.
  intros w m t d H. unfold direct in H.
  destruct (match need_ch m with NNone => _ | NAny => _ | _ => _ end); [|discriminate].
  destruct (any_available m); [discriminate|]. injection H as <-. repeat split; reflexivity.
Qed.
Lemma pair_cols : forall t (l : option (list string)),
  map fst (opt_list (option_map (map (fun v => (v, t_col t v))) l)) = opt_list l /\
  map snd (opt_list (option_map (map (fun v => (v, t_col t v))) l)) = map (t_col t) (opt_list l).
Proof. intros t [l|]; [|split; reflexivity]. cbn. rewrite !map_map. cbn [fst snd]. split; [apply map_id|reflexivity]. Qed.
Lemma need_ca_in : forall w m c, In c (ca_terms w m) \/ In c (q_terms w m) -> In (c_data c) (opt_list (need_ca w m)).
Proof.
  intros w m c H. unfold need_ca.
  assert (I : In (c_data c) (map c_data (ca_terms w m) ++ map c_data (q_terms w m))).
  { apply in_app_iff. destruct H; [left|right]; now apply in_map. }
  destruct (map c_data (ca_terms w m) ++ map c_data (q_terms w m)) as [|x l]; [destruct I|].
  cbn [opt_list]. now apply in_sorted_set.
Qed.
Lemma need_co_in : forall w m kc, In kc (co_terms w m) -> c_data (snd kc) <> "1" -> In (c_data (snd kc)) (opt_list (need_co w m)).
Proof.
  intros w m kc H N. unfold need_co. destruct (m_uco m) as [|x l] eqn:E.
  - unfold co_terms in H. rewrite E in H. destruct H.
  - cbn [opt_list]. apply in_sorted_set. apply filter_In. split; [apply in_map_iff; eauto|].
    destruct (String.eqb_spec (c_data (snd kc)) "1"); [contradiction|reflexivity].
Qed.
Lemma in_utility_co : forall w m kc, In kc (co_terms w m) -> in_utility w m (c_par (snd kc)) = true.
Proof.
  intros w m kc H. apply in_utility_spec. unfold utility_names. apply in_app_iff. left. apply in_map_iff. eauto.
Qed.
Lemma in_utility_ca : forall w m c, In c (ca_terms w m) \/ In c (q_terms w m) -> in_utility w m (c_par c) = true.
Proof.
  intros w m c H. apply in_utility_spec. unfold utility_names. rewrite !in_app_iff. right.
  destruct H; [left|right]; apply in_map_iff; eauto.
Qed.
(** Compiling and handing over gives everything by name. *)
Lemma compile_give : forall w m t d cf, covered w m -> direct w m t = Some d ->
  match compile w m d with
  | Some x => match d_ch d with
              | Some _ => Some (strip (give x (to_arrays d (m_graph m)) (map snd (m_frame m)) cf))
              | None => None
              end
  | None => None
  end = wanted_at w m t.
Proof.
  intros w m t d cf C H. pose proof (direct_ch _ _ _ _ H) as Hch. destruct (direct_rest _ _ _ _ H) as [Ha [Hal [Hco [Hca [Hwt [Hav Hty]]]]]].
  unfold compile, wanted_at. rewrite Hch, Hal, Ha.
  assert (K : forallb (fun kr : Z * nat => match index_of_Z (fst kr) (alternatives m t) with Some _ => true | None => false end) (m_uco m) =
              forallb (fun kr => existsb (fun a => (a =? fst kr)%Z) (alternatives m t)) (m_uco m)).
  { generalize (m_uco m) as l. induction l as [|kr l IH]; [reflexivity|]. cbn [forallb]. rewrite IH, index_Z.
    destruct (existsb _ (alternatives m t)); reflexivity. }
  rewrite K.
  destruct (forallb (fun kr => existsb (fun a => (a =? fst kr)%Z) (alternatives m t)) (m_uco m)) eqn:F;
    cbn [negb]; [|destruct (chosen m t); reflexivity].
  assert (Vca : match d_ca d with Some x => map fst x | None => [] end = opt_list (need_ca w m)).
  { rewrite Hca. destruct (pair_cols t (need_ca w m)) as [P _]. destruct (need_ca w m); [exact P|reflexivity]. }
  assert (Vco : match d_co d with Some x => map fst x | None => [] end = opt_list (need_co w m)).
  { rewrite Hco. destruct (pair_cols t (need_co w m)) as [P _]. destruct (need_co w m); [exact P|reflexivity]. }
  rewrite Vca, Vco.
  destruct (slots_ca_ok w m t (opt_list (need_ca w m)) (ca_terms w m) C) as [s1 [E1 M1]];
    [intros; apply in_utility_ca; auto|intros; apply need_ca_in; auto|].
  destruct (slots_ca_ok w m t (opt_list (need_ca w m)) (q_terms w m) C) as [s2 [E2 M2]];
    [intros; apply in_utility_ca; auto|intros; apply need_ca_in; auto|].
  destruct (slots_co_ok w m t (alternatives m t) (opt_list (need_co w m)) (co_terms w m) C) as [s3 [E3 M3]];
    [intros; now apply in_utility_co|intros; now apply need_co_in| |].
  { intros kc I. unfold co_terms in I. apply in_flat_map in I as [kr [I1 I2]]. apply in_map_iff in I2 as [c [<- _]]. cbn [fst].
    rewrite forallb_forall in F. now apply F. }
  rewrite E1, E2, E3, truthy_text.
  assert (Aca : match d_ca d with Some x => map snd x | None => [] end = map (t_col t) (opt_list (need_ca w m))).
  { rewrite Hca. destruct (pair_cols t (need_ca w m)) as [_ P]. destruct (need_ca w m); [exact P|reflexivity]. }
  assert (Aco : match d_co d with Some x => map snd x | None => [] end = map (t_col t) (opt_list (need_co w m))).
  { rewrite Hco. destruct (pair_cols t (need_co w m)) as [_ P]. destruct (need_co w m); [exact P|reflexivity]. }
  assert (Mu : map (fun o => match o with Some p => Some (nth_error (map snd (m_frame m)) p) | None => None end)
                 (map (fun n : Z * option string => match snd n with Some p => index_of p (map fst (m_frame m)) | None => None end) (g_nests (m_graph m))) =
               map (fun n => match snd n with Some p => Some (named w m p) | None => None end) (g_nests (m_graph m))).
  { rewrite map_map. apply map_ext_in. intros n I. destruct (snd n) as [p|] eqn:En; [|reflexivity].
    assert (S' : in_scale w m p = true).
    { unfold in_scale. apply orb_true_iff; left. apply orb_true_iff; left. apply existsb_exists. exists n. split; [exact I|].
      rewrite En. apply String.eqb_refl. }
    pose proof (index_named w m p C) as X. destruct (index_of p (map fst (m_frame m))) as [j|]; [now rewrite X|].
    exfalso. apply (C p (or_intror S')). rewrite <- (named_row w m p C). now symmetry. }
  assert (Co : map (fun kc => (place (fst kc) (alternatives m t), c_scale (snd kc), named w m (c_par (snd kc)),
                    if String.eqb (c_data (snd kc)) "1" then None else Some (Some (t_col t (c_data (snd kc)))))) (co_terms w m) =
     flat_map (fun kr => map (fun c => (place (fst kr) (alternatives m t), c_scale c, named w m (c_par c),
                                            if String.eqb (c_data c) "1" then None else Some (Some (t_col t (c_data c)))))
                                 (f_terms (w_f w (snd kr)))) (m_uco m)).
  { unfold co_terms. rewrite map_flat_map. apply flat_map_ext'. intro kr. rewrite map_map. reflexivity. }
  destruct (text (m_qs m)) as [q|].
  - pose proof (index_named w m q C) as X. destruct (index_of q (map fst (m_frame m))) as [p|] eqn:Ip.
    + assert (Y : exists v, nth_error (map snd (m_frame m)) p = Some v).
      { destruct (index_in q (map fst (m_frame m))) as [p' [I1 I2]].
        - apply row_some_in. rewrite <- index_row, Ip, X, (named_row w m q C). intro N.
          apply row_none in N. assert (Z' : forall l j, index_of q l = Some j -> In q l).
          { clear. induction l as [|y l IH]; [discriminate|]. intros j. cbn [index_of]. destruct (string_dec y q); [now left|].
            destruct (index_of q l); [|discriminate]. intros _. right. eapply IH; reflexivity. }
          exact (N (Z' _ _ Ip)).
        - rewrite Ip in I1. injection I1 as <-. assert (L : (p < length (map snd (m_frame m)))%nat).
          { rewrite map_length, <- (map_length fst). apply nth_error_Some. congruence. }
          apply nth_error_Some in L. destruct (nth_error (map snd (m_frame m)) p); [eauto|contradiction]. }
      destruct Y as [v Y]. rewrite <- X. rewrite Y. destruct (chosen m t) as [ch|]; [|reflexivity].
      f_equal. unfold strip, give, to_arrays. cbn [v_ca v_q v_qs v_co v_mu v_edges v_ch v_wt v_av v_graph v_type x_ca x_q x_qs x_co x_mu x_edges
        a_co a_ca a_ch a_wt a_av a_graph a_type]. rewrite Aca, Aco, M1, M2, M3, Mu, Co, Hch, Hwt, Hav, Hty, Y. reflexivity.
    + rewrite <- X. destruct (chosen m t); reflexivity.
  - destruct (chosen m t) as [ch|]; [|reflexivity].
    f_equal. unfold strip, give, to_arrays. cbn [v_ca v_q v_qs v_co v_mu v_edges v_ch v_wt v_av v_graph v_type x_ca x_q x_qs x_co x_mu x_edges
        a_co a_ca a_ch a_wt a_av a_graph a_type]. rewrite Aca, Aco, M1, M2, M3, Mu, Co, Hch, Hwt, Hav, Hty. reflexivity.
Qed.

(** ** Unmangling one model *)
Lemma put_same : forall {A} (f : nat -> A) k v, put f k v k = v.
Proof. intros. unfold put. now rewrite Nat.eqb_refl. Qed.
Lemma put_other : forall {A} (f : nat -> A) k v j, j <> k -> put f k v j = f j.
Proof. intros A f k v j H. unfold put. destruct (Nat.eqb_spec j k); [contradiction|reflexivity]. Qed.
Lemma on_same : forall i g w, w_m (on i g w) i = g (w_m w i).
Proof. intros. unfold on. cbn [w_m]. apply put_same. Qed.
Lemma on_other : forall i g w j, j <> i -> w_m (on i g w) j = w_m w j.
Proof. intros. unfold on. cbn [w_m]. now apply put_other. Qed.
(** The steps of [unmangle], on the model alone. *)
Definition step_scan (w : world) (force : bool) (m : mst) : mst :=
  let m := if force then mangle m else m in
  if m_mangled m || force then set_built false (m_dset m) (m_arr m) (m_fix m) (m_cf m) (m_flows m) (set_pars (scan w m) (m_cons m) m) else m.
Definition flows_of (m : mst) : string -> option flow := match m_flows m with Some f => f | None => fun _ => None end.
Definition step_load (w : world) (m : mst) : mst * bool :=
  match m_tree m with
  | None => (m, true)
  | Some t =>
    let (d, fl) := prepare w m (w_t w t) (flows_of m) in
    match d with
    | None => (set_built (m_mangled m) (m_dset m) (m_arr m) (m_fix m) (m_cf m) (match m_flows m with Some _ => Some fl | None => None end) m, false)
    | Some d => (set_built (m_mangled m) (Some d) (Some (to_arrays d (m_graph m))) (m_fix m) (m_cf m) (Some fl) m, true)
    end
  end.
Definition step_fix (w : world) (m : mst) : mst * bool :=
  match m_fix m with
  | Some _ => (m, true)
  | None => match m_dset m with
            | None => (m, true)
            | Some d => match compile w m d with
                        | None => (m, false)
                        | Some x => (set_built (m_mangled m) (m_dset m) (m_arr m) (Some x) (m_cf m) (m_flows m) m, true)
                        end
            end
  end.
Definition step_cf (m : mst) : mst :=
  set_built (m_mangled m) (m_dset m) (m_arr m) (m_fix m) (match m_cf m with Some c => Some c | None => Some (m_cons m) end) (m_flows m) m.
Definition step_unmangle (w : world) (force : bool) (m : mst) : mst * bool :=
  let m := step_scan w force m in
  let (m, ok) := match m_dset m with None => step_load w m | Some _ => if force then step_load w m else (m, true) end in
  if negb ok then (m, false)
  else let (m, ok) := step_fix w m in if negb ok then (m, false) else (step_cf m, true).
Lemma rest_refl : forall i w, rest_same i w w.
Proof. intros. repeat split; reflexivity. Qed.
Lemma rest_trans : forall i a b c, rest_same i a b -> rest_same i b c -> rest_same i a c.
Proof.
  intros i a b c [A1 [A2 [A3 A4]]] [B1 [B2 [B3 B4]]]. repeat split; try congruence. intros j J. rewrite B4 by auto. now apply A4.
Qed.
Lemma rest_on : forall i g w, rest_same i w (on i g w).
Proof. intros. repeat split; try reflexivity. intros j J. now apply on_other. Qed.
(** Nothing is read from other models. *)
Lemma reads_scan : forall i w w' m, rest_same i w w' -> scan w' m = scan w m.
Proof.
  intros i [f n m t] [f' n' m' t'] x [A [B [C D]]]. cbn in *. subst. reflexivity.
Qed.
Lemma reads_prepare : forall i w w' m t fl, rest_same i w w' -> prepare w' m t fl = prepare w m t fl.
Proof. intros i [f n m t] [f' n' m' t'] x y fl [A [B [C D]]]. cbn in *. subst. reflexivity. Qed.
Lemma reads_compile : forall i w w' m d, rest_same i w w' -> compile w' m d = compile w m d.
Proof. intros i [f n m t] [f' n' m' t'] x y [A [B [C D]]]. cbn in *. subst. reflexivity. Qed.
Lemma reads_step_load : forall i w w' m, rest_same i w w' -> step_load w' m = step_load w m.
Proof. intros i [f n m t] [f' n' m' t'] x [A [B [C D]]]. cbn in *. subst. reflexivity. Qed.
Lemma reads_step_fix : forall i w w' m, rest_same i w w' -> step_fix w' m = step_fix w m.
Proof. intros i [f n m t] [f' n' m' t'] x [A [B [C D]]]. cbn in *. subst. reflexivity. Qed.
Lemma reads_covered : forall i w w' m, rest_same i w w' -> covered w m -> covered w' m.
Proof. intros i [f n m t] [f' n' m' t'] x [A [B [C D]]]. cbn in *. subst. auto. Qed.
Lemma reads_direct : forall i w w' m t, rest_same i w w' -> direct w' m t = direct w m t.
Proof. intros i [f n m t] [f' n' m' t'] x y [A [B [C D]]]. cbn in *. subst. reflexivity. Qed.
Lemma reads_asked : forall i w w' m t k, rest_same i w w' -> asked w' m t k = asked w m t k.
Proof. intros i [f n m t] [f' n' m' t'] x y k [A [B [C D]]]. cbn in *. subst. reflexivity. Qed.
Lemma reads_named : forall i w w' m n, rest_same i w w' -> named w' m n = named w m n.
Proof. intros i [f n m t] [f' n' m' t'] x y [A [B [C D]]]. cbn in *. subst. reflexivity. Qed.
Lemma reads_wanted : forall i w w' m t, rest_same i w w' -> wanted_at w' m t = wanted_at w m t.
Proof. intros i [f n m t] [f' n' m' t'] x y [A [B [C D]]]. cbn in *. subst. reflexivity. Qed.
Lemma reads_step_unmangle : forall i w w' b m, rest_same i w w' -> step_unmangle w' b m = step_unmangle w b m.
Proof. intros i [f n m t] [f' n' m' t'] b x [A [B [C D]]]. cbn in *. subst. reflexivity. Qed.
Lemma reflow_step : forall i w, let (w', ok) := reflow w i in
  rest_same i w w' /\ (w_m w' i, ok) = step_load w (w_m w i).
Proof.
  intros i w. unfold reflow, step_load. destruct (m_tree (w_m w i)) as [t|]; [|split; [apply rest_refl|reflexivity]].
  fold (flows_of (w_m w i)). destruct (prepare w (w_m w i) (w_t w t) (flows_of (w_m w i))) as [[d|] fl];
    (split; [apply rest_on|rewrite on_same; reflexivity]).
Qed.
Lemma unmangle_step : forall i force w, let (w', ok) := unmangle i force w in
  rest_same i w w' /\ (w_m w' i, ok) = step_unmangle w force (w_m w i).
Proof.
  intros i force w. unfold unmangle.
  set (w1 := if force then on i mangle w else w).
  assert (R1 : rest_same i w w1 /\ w_m w1 i = if force then mangle (w_m w i) else w_m w i).
  { unfold w1. destruct force; [split; [apply rest_on|apply on_same]|split; [apply rest_refl|reflexivity]]. }
  destruct R1 as [R1 M1].
  set (w2 := if m_mangled (w_m w1 i) || force then
             on i (fun m => set_built false (m_dset m) (m_arr m) (m_fix m) (m_cf m) (m_flows m) (set_pars (scan w1 m) (m_cons m) m)) w1
           else w1).
  assert (R2 : rest_same i w w2 /\ w_m w2 i = step_scan w force (w_m w i)).
  { unfold w2, step_scan. rewrite <- M1. destruct (m_mangled (w_m w1 i) || force); [|split; auto].
    split; [eapply rest_trans; [exact R1|apply rest_on]|]. rewrite on_same. now rewrite (reads_scan i w w1) by exact R1. }
  destruct R2 as [R2 M2]. clearbody w2. clear w1 R1 M1. unfold step_unmangle. rewrite <- M2. clear M2.
  assert (R3 : forall w3 ok, (match m_dset (w_m w2 i) with None => reflow w2 i | Some _ => if force then reflow w2 i else (w2, true) end) = (w3, ok) ->
     rest_same i w w3 /\ (w_m w3 i, ok) =
     (match m_dset (w_m w2 i) with None => step_load w (w_m w2 i) | Some _ => if force then step_load w (w_m w2 i) else (w_m w2 i, true) end)).
  { intros w3 ok E. pose proof (reflow_step i w2) as Q. rewrite (reads_step_load i w w2) in Q by exact R2.
    destruct (m_dset (w_m w2 i)); [destruct force|]; try (rewrite E in Q; destruct Q as [Q1 Q2]; split; [eapply rest_trans; eauto|exact Q2]).
    injection E as <- <-. split; auto. }
  destruct (match m_dset (w_m w2 i) with None => reflow w2 i | Some _ => if force then reflow w2 i else (w2, true) end) as [w3 ok] eqn:E3.
  destruct (R3 w3 ok eq_refl) as [R4 M4]. rewrite <- M4. destruct ok; cbn [negb]; [|split; auto]. clear R3 M4 E3.
  unfold step_fix. destruct (m_fix (w_m w3 i)) eqn:F.
  - cbn [negb]. split; [eapply rest_trans; [exact R4|apply rest_on]|]. rewrite on_same. unfold step_cf. reflexivity.
  - destruct (m_dset (w_m w3 i)) as [d|] eqn:D.
    + rewrite (reads_compile i w w3) by exact R4. destruct (compile w (w_m w3 i) d) as [x|]; cbn [negb]; [|split; auto].
      split; [eapply rest_trans; [exact R4|]; eapply rest_trans; apply rest_on|]. rewrite !on_same. unfold step_cf. cbn [m_mangled m_dset m_arr m_fix m_cf m_flows m_cons set_built]. rewrite D. reflexivity.
    + cbn [negb]. split; [eapply rest_trans; [exact R4|apply rest_on]|]. rewrite on_same. unfold step_cf. rewrite D. reflexivity.
Qed.

(** ** What is compiled fits the settings *)
Record built (w : world) (m : mst) : Prop := {
  b_names : m_mangled m = false -> covered w m;
  b_dset : forall d, m_dset m = Some d -> m_mangled m = false /\ exists t, m_tree m = Some t /\ direct w m (w_t w t) = Some d /\
             m_arr m = Some (to_arrays d (m_graph m));
  b_fix : forall x, m_fix m = Some x -> m_mangled m = false /\ exists t d, m_tree m = Some t /\ direct w m (w_t w t) = Some d /\
             compile w m d = Some x;
  b_cf : forall c, m_cf m = Some c -> c = m_cons m }.
Lemma idle_built : forall w m, idle m -> built w m.
Proof. intros w m [A [B [C [D E]]]]. split; intros; congruence. Qed.
Lemma mangle_idle : forall m, idle (mangle m).
Proof. intro m. repeat split. Qed.
Lemma kept_refl : forall m, kept m m.
Proof. intro m. repeat split. Qed.
Lemma kept_trans : forall a b c, kept a b -> kept b c -> kept a c.
Proof. unfold kept. intros a b c H K. intuition congruence. Qed.
Ltac kept_tac := let H := fresh in intros w m m' H; intros; unfold kept in H;
  destruct H as [?[?[?[?[?[?[?[?[?[?[?[?[?[?[?[??]]]]]]]]]]]]]]]].
Lemma kept_used : forall w m m', kept m m' -> forall n, in_utility w m' n = in_utility w m n /\ in_scale w m' n = in_scale w m n.
Proof.
  kept_tac. split.
  - unfold in_utility. congruence.
  - unfold in_scale. repeat match goal with E : _ = _ |- _ => rewrite E end. reflexivity.
Qed.
Lemma kept_alts : forall m m', kept m m' -> forall t, alternatives m' t = alternatives m t.
Proof. intros m m' H t. unfold kept in H. unfold alternatives. replace (m_graph m') with (m_graph m) by intuition congruence. reflexivity. Qed.
Lemma kept_chosen : forall m m', kept m m' -> forall t, chosen m' t = chosen m t.
Proof.
  intros m m' H t. unfold chosen. rewrite (kept_alts m m' H).
  destruct H as [?[?[?[?[?[H1[H2[H3 _]]]]]]]]. now rewrite H1, H2, H3.
Qed.
Lemma kept_rest : forall m m', kept m m' -> forall t, weighted m' t = weighted m t /\ available m' t = available m t /\ any_available m' = any_available m.
Proof.
  intros m m' H t. unfold weighted, available, any_available. rewrite (kept_alts m m' H).
  destruct H as [?[?[?[?[?[H1[H2[H3[H4[H5[H6[H7[H8 _]]]]]]]]]]]]]. rewrite H5, H6, H7, H8. auto.
Qed.
Lemma kept_needs : forall w m m', kept m m' -> need_ca w m' = need_ca w m /\ need_co w m' = need_co w m /\ need_ch m' = need_ch m.
Proof.
  intros w m m' H. unfold need_ca, need_co, ca_terms, q_terms, co_terms, need_ch.
  destruct H as [H1[H2[H3[H4[H5[H6[H7[H8[H9 _]]]]]]]]]. rewrite H1, H2, H3, H6, H7, H8, H9. auto.
Qed.
Lemma kept_direct : forall w m m', kept m m' -> forall t, direct w m' t = direct w m t.
Proof.
  intros w m m' H t. unfold direct. destruct (kept_needs w m m' H) as [-> [-> ->]].
  rewrite (kept_chosen m m' H). destruct (kept_rest m m' H t) as [-> [-> ->]]. rewrite (kept_alts m m' H).
  destruct H as [?[?[?[?[?[H1[H2[H3[H4[H5[H6[H7[H8 [? [H9 _]]]]]]]]]]]]]]]. now rewrite H9.
Qed.
Lemma kept_asked : forall w m m', kept m m' -> forall t k, asked w m' t k = asked w m t k.
Proof.
  intros w m m' H t k. unfold asked. destruct (kept_needs w m m' H) as [-> [-> _]]. rewrite (kept_alts m m' H).
  destruct H as [?[?[?[?[?[H1[H2[H3[H4[H5[H6[H7[H8 _]]]]]]]]]]]]]. now rewrite H1, H5, H6, H7.
Qed.
Lemma kept_wanted : forall w m m', kept m m' -> (forall n, named w m' n = named w m n) -> forall t, wanted_at w m' t = wanted_at w m t.
Proof.
  intros w m m' H N t. unfold wanted_at. rewrite (kept_chosen m m' H). destruct (kept_rest m m' H t) as [-> [-> ->]].
  rewrite (kept_alts m m' H). destruct H as [H1[H2[H3[H4[H5[H6[H7[H8[H9[HA[HB[HC[HD[HE [HF _]]]]]]]]]]]]]]].
  rewrite H1, H2, H3, H4, HE, HF. destruct (chosen m t); [|reflexivity]. destruct (any_available m); [reflexivity|].
  destruct (negb _); [reflexivity|].
  assert (X : match text (m_qs m) with Some s => match named w m' s with None => true | Some _ => false end | None => false end =
              match text (m_qs m) with Some s => match named w m s with None => true | Some _ => false end | None => false end).
  { destruct (text (m_qs m)); [now rewrite N|reflexivity]. }
  rewrite X. destruct (match text (m_qs m) with Some s => match named w m s with None => true | Some _ => false end | None => false end); [reflexivity|].
  f_equal. f_equal.
  - apply map_ext. intro x. now rewrite N.
  - apply map_ext. intro x. now rewrite N.
  - destruct (text (m_qs m)); [now rewrite N|reflexivity].
  - apply flat_map_ext'. intro kr. apply map_ext. intro x. now rewrite N.
  - apply map_ext. intro x. destruct (snd x); [now rewrite N|reflexivity].
Qed.

Definition clear_m (w : world) (m : mst) : Prop := forall t, m_tree m = Some t -> clearf w m (w_t w t) (flows_of m).
Lemma clear_clear_m : forall w i, clear w i <-> clear_m w (w_m w i).
Proof.
  intros w i. unfold clear, clear_m, clearf, flows_of. split; intros H.
  - intros t T key tag defs f A F N. destruct (m_flows (w_m w i)) as [fl|] eqn:E; [|discriminate]. eapply H; eauto.
  - intros t fl key tag defs f T E A F N. rewrite E in H. eapply H; eauto.
Qed.
Lemma covered_rows : forall w m m', kept m m' -> (forall n, row (m_frame m') n = named w m n) -> covered w m'.
Proof.
  intros w m m' K H n U. rewrite H. destruct (kept_used w m m' K n) as [E1 E2]. rewrite E1, E2 in U. unfold named.
  destruct (row (m_frame m) n); [discriminate|]. destruct (in_utility w m n); [discriminate|].
  destruct (in_scale w m n); [discriminate|]. destruct U; discriminate.
Qed.
Lemma named_after : forall w m m' n, kept m m' -> (forall n, row (m_frame m') n = named w m n) -> named w m' n = named w m n.
Proof. intros w m m' n K H. rewrite (named_row w m' n (covered_rows w m m' K H)). apply H. Qed.
Lemma step_scan_ok : forall w force m, built w m ->
  let m' := step_scan w force m in
  kept m m' /\ m_mangled m' = false /\ (forall n, row (m_frame m') n = named w m n) /\ built w m' /\ m_flows m' = m_flows m /\
  (force = true -> m_dset m' = None /\ m_fix m' = None).
Proof.
  intros w force m B. unfold step_scan.
  set (m0 := if force then mangle m else m).
  assert (K0 : kept m m0) by (unfold m0; destruct force; repeat split).
  assert (B0 : built w m0) by (unfold m0; destruct force; [apply idle_built, mangle_idle|exact B]).
  assert (F0 : m_frame m0 = m_frame m /\ m_flows m0 = m_flows m) by (unfold m0; destruct force; auto).
  assert (N0 : forall n, named w m0 n = named w m n).
  { intro n. unfold named. destruct F0 as [-> _]. destruct (kept_used w m m0 K0 n) as [-> ->]. reflexivity. }
  assert (Z0 : force = true -> m_dset m0 = None /\ m_fix m0 = None) by (unfold m0; intros ->; auto).
  clearbody m0. destruct F0 as [F0 L0].
  destruct (m_mangled m0 || force) eqn:M.
  - assert (I : m_dset m0 = None /\ m_fix m0 = None).
    { apply orb_true_iff in M as [M|M]; [|auto].
      destruct (m_dset m0) eqn:D; [destruct (b_dset w m0 B0 _ D); congruence|].
      destruct (m_fix m0) eqn:X; [destruct (b_fix w m0 B0 _ X); congruence|auto]. }
    destruct I as [D X].
    set (m1 := set_built false _ _ _ _ _ _).
    assert (K1 : kept m m1) by (eapply kept_trans; [exact K0|]; repeat split).
    assert (R1 : forall n, row (m_frame m1) n = named w m n) by (intro n; unfold m1; cbn [m_frame set_built set_pars]; rewrite row_scan; apply N0).
    split; [exact K1|]. split; [reflexivity|]. split; [exact R1|]. split; [|split; [exact L0|]].
    + split.
      * intros _. now apply covered_rows with m.
      * unfold m1. cbn [m_dset set_built]. rewrite D. discriminate.
      * unfold m1. cbn [m_fix set_built]. rewrite X. discriminate.
      * unfold m1. cbn [m_cf m_cons set_built set_pars]. apply (b_cf w m0 B0).
    + intros _. split; [exact D|exact X].
  - apply orb_false_iff in M as [M Fo].
    split; [exact K0|]. split; [exact M|]. split; [|split; [exact B0|split; [exact L0|congruence]]].
    intro n. rewrite <- N0. symmetry. apply named_row. now apply (b_names w m0 B0).
Qed.
Lemma kept_step_load : forall w m, kept m (fst (step_load w m)) /\ m_frame (fst (step_load w m)) = m_frame m /\
  m_mangled (fst (step_load w m)) = m_mangled m /\ m_fix (fst (step_load w m)) = m_fix m /\ m_cf (fst (step_load w m)) = m_cf m.
Proof.
  intros w m. unfold step_load. destruct (m_tree m); [|repeat split]. destruct (prepare w m _ _) as [[d|] fl]; repeat split.
Qed.
Lemma kept_compile : forall w m m', kept m m' -> m_frame m' = m_frame m -> forall d, compile w m' d = compile w m d.
Proof.
  intros w m m' H F d. unfold compile, ca_terms, q_terms, co_terms. rewrite F.
  destruct H as [H1[H2[H3[H4[H5[H6[H7[H8[H9[HA[HB[HC[HD[HE [HF _]]]]]]]]]]]]]]]. rewrite H1, H2, H3, H4, HE. reflexivity.
Qed.
Lemma kept_clearf : forall w m m' t fl, kept m m' -> clearf w m t fl -> clearf w m' t fl.
Proof. intros w m m' t fl K C key tag defs f A. rewrite (kept_asked w m m' K) in A. now apply C. Qed.
(** The state after loading. *)
Definition loaded (w : world) (m : mst) : Prop :=
  match m_tree m with
  | None => True
  | Some t => exists d, direct w m (w_t w t) = Some d /\ m_dset m = Some d /\ m_arr m = Some (to_arrays d (m_graph m))
  end.
Lemma step_load_ok : forall w m, built w m -> m_mangled m = false -> clear_m w m ->
  let (m', ok) := step_load w m in
  built w m' /\ clear_m w m' /\
  (if ok then loaded w m' else exists t, m_tree m = Some t /\ direct w m (w_t w t) = None).
Proof.
  intros w m B M C. pose proof (kept_step_load w m) as K. destruct (step_load w m) as [m' ok] eqn:E. cbn [fst] in K.
  destruct K as [K [Fr [Mg [Fx Cf]]]]. unfold step_load in E.
  destruct (m_tree m) as [t|] eqn:T.
  - destruct (prepare_ok w m (w_t w t) (flows_of m) (C t T)) as [P1 P2].
    destruct (prepare w m (w_t w t) (flows_of m)) as [od fl]. cbn [fst snd] in P1, P2.
    assert (Bn : m_mangled m' = false -> covered w m').
    { intros _. intros n U. rewrite Fr. destruct (kept_used w m m' K n) as [U1 U2]. rewrite U1, U2 in U. exact (b_names w m B M n U). }
    assert (Bf : forall x, m_fix m' = Some x -> m_mangled m' = false /\ exists t d, m_tree m' = Some t /\ direct w m' (w_t w t) = Some d /\
             compile w m' d = Some x).
    { intros x X. rewrite Fx in X. destruct (b_fix w m B x X) as [_ [t' [d [Q1 [Q2 Q3]]]]]. split; [congruence|]. exists t', d.
      rewrite (kept_direct w m m' K), (kept_compile w m m' K Fr). split; [|auto].
      destruct K as [?[?[?[?[?[?[?[?[?[?[?[?[?[?[?[K _]]]]]]]]]]]]]]]]. congruence. }
    assert (Bc : forall c, m_cf m' = Some c -> c = m_cons m').
    { intros c X. rewrite Cf in X. rewrite (b_cf w m B c X). destruct K as [?[?[?[?[?[?[?[?[?[?[?[?[?[?[?[? K]]]]]]]]]]]]]]]]. congruence. }
    assert (Kt : m_tree m' = Some t) by (destruct K as [?[?[?[?[?[?[?[?[?[?[?[?[?[?[?[K _]]]]]]]]]]]]]]]]; congruence).
    destruct od as [d|]; injection E as E1 E2; subst ok.
    + assert (L : m_dset m' = Some d /\ m_arr m' = Some (to_arrays d (m_graph m')) /\ m_flows m' = Some fl) by (subst m'; auto).
      destruct L as [L1 [L2 L3]].
      assert (D : direct w m' (w_t w t) = Some d) by (now rewrite (kept_direct w m m' K)).
      split; [|split].
      * split; auto. intros d' D'. rewrite L1 in D'. injection D' as <-. split; [congruence|]. exists t. auto.
      * intros t' T'. rewrite Kt in T'. injection T' as <-. apply (kept_clearf w m m' _ _ K). unfold flows_of. rewrite L3. exact P2.
      * unfold loaded. rewrite Kt. eauto.
    + assert (L : m_dset m' = m_dset m /\ m_arr m' = m_arr m /\ m_flows m' = match m_flows m with Some _ => Some fl | None => None end) by (subst m'; auto).
      destruct L as [L1 [L2 L3]]. split; [|split].
      * split; auto. intros d' D'. rewrite L1 in D'. destruct (b_dset w m B d' D') as [_ [t' [Q1 [Q2 Q3]]]].
        rewrite T in Q1. injection Q1 as <-. congruence.
      * intros t' T'. rewrite Kt in T'. injection T' as <-. apply (kept_clearf w m m' _ _ K). unfold flows_of. rewrite L3.
        destruct (m_flows m); [exact P2|]. intros key tag defs f A F. discriminate.
      * exists t. auto.
  - injection E as <- <-. split; [exact B|split; [exact C|]]. unfold loaded. now rewrite T.
Qed.
(** The state after compiling. *)
Definition compiled (w : world) (m : mst) : Prop :=
  match m_tree m with
  | None => True
  | Some t => exists d x, direct w m (w_t w t) = Some d /\ m_dset m = Some d /\ m_arr m = Some (to_arrays d (m_graph m)) /\
                          compile w m d = Some x /\ m_fix m = Some x
  end.
Lemma built_set_fix : forall w m x t d, built w m -> m_mangled m = false -> m_tree m = Some t -> direct w m (w_t w t) = Some d ->
  compile w m d = Some x -> built w (set_built (m_mangled m) (m_dset m) (m_arr m) (Some x) (m_cf m) (m_flows m) m).
Proof.
  intros w m x t d B M T D X. split.
  - intros _. exact (b_names w m B M).
  - exact (b_dset w m B).
  - intros x' E. cbn [m_fix set_built] in E. injection E as <-. split; [exact M|]. exists t, d. auto.
  - exact (b_cf w m B).
Qed.
Lemma step_unmangle_ok : forall w force m, built w m -> clear_m w m ->
  let (m', ok) := step_unmangle w force m in
  kept m m' /\ m_mangled m' = false /\ (forall n, row (m_frame m') n = named w m n) /\ built w m' /\ clear_m w m' /\
  (if ok then compiled w m' /\ m_cf m' = Some (m_cons m)
   else exists t, m_tree m = Some t /\
          (direct w m (w_t w t) = None \/ exists d, direct w m (w_t w t) = Some d /\ compile w m' d = None)).
Proof.
  intros w force m B C. unfold step_unmangle.
  destruct (step_scan_ok w force m B) as [K1 [M1 [R1 [B1 [L1 Z1]]]]].
  remember (step_scan w force m) as m1 eqn:E1. clear E1.
  assert (C1 : clear_m w m1).
  { intros t T. apply (kept_clearf w m m1 _ _ K1). unfold flows_of. rewrite L1. apply C.
    destruct K1 as [?[?[?[?[?[?[?[?[?[?[?[?[?[?[?[K _]]]]]]]]]]]]]]]]. congruence. }
  assert (Kt : m_tree m1 = m_tree m) by (destruct K1 as [?[?[?[?[?[?[?[?[?[?[?[?[?[?[?[K _]]]]]]]]]]]]]]]]; congruence).
  assert (H2 : exists m2 ok, (match m_dset m1 with None => step_load w m1 | Some _ => if force then step_load w m1 else (m1, true) end) = (m2, ok) /\
    kept m1 m2 /\ m_frame m2 = m_frame m1 /\ m_mangled m2 = false /\ built w m2 /\ clear_m w m2 /\
    (if ok then loaded w m2 else exists t, m_tree m1 = Some t /\ direct w m1 (w_t w t) = None)).
  { assert (Hl : exists m2 ok, step_load w m1 = (m2, ok) /\ kept m1 m2 /\ m_frame m2 = m_frame m1 /\ m_mangled m2 = false /\ built w m2 /\ clear_m w m2 /\
                   (if ok then loaded w m2 else exists t, m_tree m1 = Some t /\ direct w m1 (w_t w t) = None)).
    { pose proof (step_load_ok w m1 B1 M1 C1) as Q. pose proof (kept_step_load w m1) as K. destruct (step_load w m1) as [m2 ok].
      cbn [fst] in K. destruct K as [K [F [G _]]]. destruct Q as [Q1 [Q2 Q3]].
      exists m2, ok. split; [reflexivity|]. split; [exact K|]. split; [exact F|]. split; [congruence|]. auto. }
    destruct (m_dset m1) as [d|] eqn:D; [|exact Hl]. destruct force; [exact Hl|].
    exists m1, true. split; [reflexivity|]. split; [apply kept_refl|]. split; [reflexivity|]. split; [exact M1|].
    split; [exact B1|]. split; [exact C1|]. destruct (b_dset w m1 B1 d D) as [_ [t [T [Q1 Q2]]]]. unfold loaded. rewrite T. eauto. }
  destruct H2 as [m2 [ok [-> [K2 [F2 [M2 [B2 [C2 H2]]]]]]]]. clear Z1 L1.
  assert (K : kept m m2) by (eapply kept_trans; eauto).
  assert (R2 : forall n, row (m_frame m2) n = named w m n) by (intro n; rewrite F2; apply R1).
  destruct ok; cbn [negb].
  2: { split; [exact K|]. split; [exact M2|]. split; [exact R2|]. split; [exact B2|]. split; [exact C2|].
       destruct H2 as [t [T D]]. exists t. split; [congruence|]. left. now rewrite <- (kept_direct w m m1 K1). }
  assert (Kc : m_cons m2 = m_cons m) by (destruct K as [?[?[?[?[?[?[?[?[?[?[?[?[?[?[?[? K]]]]]]]]]]]]]]]]; congruence).
  assert (Kt2 : m_tree m2 = m_tree m) by (destruct K2 as [?[?[?[?[?[?[?[?[?[?[?[?[?[?[?[K2 _]]]]]]]]]]]]]]]]; congruence).
  (* the last step keeps what was there *)
  assert (End : forall m3, kept m m3 -> m_frame m3 = m_frame m2 -> m_mangled m3 = false -> built w m3 -> clear_m w m3 -> compiled w m3 ->
     kept m (step_cf m3) /\ m_mangled (step_cf m3) = false /\ (forall n, row (m_frame (step_cf m3)) n = named w m n) /\ built w (step_cf m3) /\
     clear_m w (step_cf m3) /\ compiled w (step_cf m3) /\ m_cf (step_cf m3) = Some (m_cons m)).
  { intros m3 K3 F3 M3 B3 C3 X3. split; [exact K3|]. split; [exact M3|]. split; [intro n; cbn; rewrite F3; apply R2|].
    assert (Cf : m_cf (step_cf m3) = Some (m_cons m3)).
    { unfold step_cf. cbn [m_cf set_built]. destruct (m_cf m3) eqn:E; [now rewrite (b_cf w m3 B3 _ E)|reflexivity]. }
    split; [|split; [exact C3|split; [exact X3|]]].
    - split; [intros _; exact (b_names w m3 B3 M3)|exact (b_dset w m3 B3)|exact (b_fix w m3 B3)|].
      intros c E. rewrite Cf in E. now injection E as <-.
    - rewrite Cf. destruct K3 as [?[?[?[?[?[?[?[?[?[?[?[?[?[?[?[? K3]]]]]]]]]]]]]]]]; congruence. }
  unfold step_fix. destruct (m_fix m2) as [x|] eqn:X.
  - cbn [negb]. apply End; auto. unfold compiled. unfold loaded in H2. destruct (m_tree m2) as [t|] eqn:T; [|exact I].
    destruct H2 as [d [H3 [H4 H5]]]. destruct (b_fix w m2 B2 x X) as [_ [t' [d' [Q1 [Q2 Q3]]]]].
    rewrite T in Q1. injection Q1 as <-. rewrite Q2 in H3. injection H3 as ->. exists d, x. auto.
  - unfold loaded in H2. destruct (m_dset m2) as [d|] eqn:D.
    + destruct (b_dset w m2 B2 d D) as [_ [t [T [Q1 Q2]]]].
      destruct (compile w m2 d) as [x|] eqn:P; cbn [negb].
      * apply End; auto.
        -- rewrite <- D. now apply built_set_fix with t d.
        -- unfold compiled. cbn [m_tree set_built]. rewrite T. exists d, x. auto.
      * split; [exact K|]. split; [exact M2|]. split; [exact R2|]. split; [exact B2|]. split; [exact C2|].
        exists t. split; [congruence|]. right. exists d. split; [|exact P]. now rewrite <- (kept_direct w m m2 K).
    + cbn [negb]. apply End; auto. unfold compiled. destruct (m_tree m2); [|exact I]. destruct H2 as [d [_ [H2 _]]]. discriminate.
Qed.
(** ** Evaluation *)
Lemma built_rest : forall i w w' m, rest_same i w w' -> built w m -> built w' m.
Proof. intros i [f n m t] [f' n' m' t'] x [A [B [C D]]] H. cbn in *. subst. destruct H. split; auto. Qed.
Lemma clear_m_rest : forall i w w' m, rest_same i w w' -> clear_m w m -> clear_m w' m.
Proof. intros i [f n m t] [f' n' m' t'] x [A [B [C D]]] H. cbn in *. subst. exact H. Qed.
Lemma eval_built : forall w i, built w (w_m w i) -> clear w i -> answer w i = wanted w i.
Proof.
  intros w i B C. apply clear_clear_m in C. unfold answer, eval. rewrite wanted_unfold.
  destruct (m_tree (w_m w i)) as [t|] eqn:T; [|reflexivity].
  pose proof (unmangle_step i false w) as U. destruct (unmangle i false w) as [w' ok]. destruct U as [R U].
  pose proof (step_unmangle_ok w false (w_m w i) B C) as Q. rewrite <- U in Q. destruct Q as [K [M [Rw [B' [C' Q]]]]].
  assert (W : wanted_at w (w_m w' i) (w_t w t) = wanted_at w (w_m w i) (w_t w t)).
  { apply kept_wanted; [exact K|]. intro n. now apply named_after. }
  assert (Kt : m_tree (w_m w' i) = Some t) by (destruct K as [?[?[?[?[?[?[?[?[?[?[?[?[?[?[?[K _]]]]]]]]]]]]]]]]; congruence).
  assert (Cv : covered w (w_m w' i)) by (now apply (b_names w (w_m w' i) B')).
  destruct ok; cbn [negb snd].
  - destruct Q as [Q Cf]. unfold compiled in Q. rewrite Kt in Q. destruct Q as [d [x [Q1 [Q2 [Q3 [Q4 Q5]]]]]].
    rewrite Q2, Q3, Q5, Cf. rewrite <- W. rewrite <- (compile_give w (w_m w' i) (w_t w t) d (m_cons (w_m w i)) Cv Q1), Q4.
    destruct (d_ch d); reflexivity.
  - cbn [option_map]. symmetry. rewrite <- W. destruct Q as [t' [T' Q]]. rewrite T in T'. injection T' as <-.
    destruct Q as [Q|[d [Q1 Q2]]].
    + apply direct_none. now rewrite (kept_direct w (w_m w i) (w_m w' i) K).
    + rewrite <- (kept_direct w (w_m w i) (w_m w' i) K) in Q1.
      rewrite <- (compile_give w (w_m w' i) (w_t w t) d [] Cv Q1), Q2. reflexivity.
Qed.

(** ** Sessions *)
Definition reach (m : mst) (r : nat) : Prop := r = m_uca m \/ r = m_qca m \/ In r (map snd (m_uco m)).
Definition excl (m : mst) : Prop :=
  (m_cca m <> None -> m_cco m = None /\ m_ccode m = None /\ m_cany m = false) /\
  (m_cco m <> None -> m_cca m = None /\ m_ccode m = None /\ m_cany m = false) /\
  (m_ccode m <> None -> m_cca m = None /\ m_cco m = None /\ m_cany m = false) /\
  (m_av m <> None -> m_avco m = None /\ m_avany m = false) /\
  (m_avco m <> None -> m_av m = None /\ m_avany m = false).
Record inv (n : nat) (w : world) : Prop := {
  v_built : forall i, (i < n)%nat -> built w (w_m w i);
  v_excl : forall i, (i < n)%nat -> excl (w_m w i);
  v_refs : forall i r, (i < n)%nat -> reach (w_m w i) r -> (r < w_next w)%nat;
  v_own : forall i, (i < n)%nat -> f_owner (w_f w (m_uca (w_m w i))) = Some i /\ f_owner (w_f w (m_qca (w_m w i))) = Some i;
  v_apart : forall i j r, (i < n)%nat -> (j < n)%nat -> i <> j -> reach (w_m w i) r -> ~ reach (w_m w j) r }.
Lemma ext_terms : forall w w' m, (forall r, reach m r -> f_terms (w_f w' r) = f_terms (w_f w r)) ->
  ca_terms w' m = ca_terms w m /\ q_terms w' m = q_terms w m /\ co_terms w' m = co_terms w m /\
  flat_map (fun kr => f_terms (w_f w' (snd kr))) (m_uco m) = flat_map (fun kr => f_terms (w_f w (snd kr))) (m_uco m).
Proof.
  intros w w' m H. unfold ca_terms, q_terms, co_terms. split; [apply H; now left|]. split; [apply H; right; now left|].
  assert (H' : forall kr, In kr (m_uco m) -> f_terms (w_f w' (snd kr)) = f_terms (w_f w (snd kr))).
  { intros kr I. apply H. right; right. now apply in_map. }
  revert H'. generalize (m_uco m) as l. induction l as [|kr l IH]; [split; reflexivity|]. intro H'.
  destruct IH as [I1 I2]; [intros; apply H'; now right|]. cbn [flat_map]. rewrite I1, I2, (H' kr) by now left. split; reflexivity.
Qed.
Lemma built_ext : forall w w' m, (forall r, reach m r -> f_terms (w_f w' r) = f_terms (w_f w r)) ->
  (forall t, m_tree m = Some t -> w_t w' t = w_t w t) -> built w m -> built w' m.
Proof.
  intros w w' m H T B. destruct (ext_terms w w' m H) as [E1 [E2 [E3 E4]]]. unfold ca_terms in E1. unfold q_terms in E2.
  assert (U : forall n, in_utility w' m n = in_utility w m n) by (intro n; unfold in_utility; now rewrite E1, E2, E4).
  assert (S' : forall n, in_scale w' m n = in_scale w m n) by (intro n; unfold in_scale; now rewrite E2).
  assert (D : forall t, direct w' m t = direct w m t).
  { intro t. unfold direct, need_ca, need_co, ca_terms, q_terms. now rewrite E1, E2, E3. }
  assert (X : forall d, compile w' m d = compile w m d).
  { intro d. unfold compile, ca_terms, q_terms. now rewrite E1, E2, E3. }
  split.
  - intros M n. rewrite U, S'. exact (b_names w m B M n).
  - intros d Q. destruct (b_dset w m B d Q) as [M [t [T' [P1 P2]]]]. split; [exact M|]. exists t. rewrite (T t T'), D. auto.
  - intros x Q. destruct (b_fix w m B x Q) as [M [t [d [T' [P1 P2]]]]]. split; [exact M|]. exists t, d. rewrite (T t T'), D, X. auto.
  - exact (b_cf w m B).
Qed.
(** A change of one model and the functions it reaches. *)
Lemma inv_touch : forall n i w w', inv n w -> (i < n)%nat ->
  (forall j, j <> i -> w_m w' j = w_m w j) ->
  (forall r, (r < w_next w)%nat -> ~ reach (w_m w i) r -> w_f w' r = w_f w r) ->
  w_t w' = w_t w -> (w_next w <= w_next w')%nat ->
  (forall r, reach (w_m w' i) r -> reach (w_m w i) r \/ (w_next w <= r /\ r < w_next w')%nat) ->
  f_owner (w_f w' (m_uca (w_m w' i))) = Some i -> f_owner (w_f w' (m_qca (w_m w' i))) = Some i ->
  excl (w_m w' i) -> built w' (w_m w' i) -> inv n w'.
Proof.
  intros n i w w' V I T1 T2 T3 T4 T5 O1 O2 X B.
  assert (F : forall j r, (j < n)%nat -> j <> i -> reach (w_m w j) r -> w_f w' r = w_f w r).
  { intros j r J Ne R. apply T2; [eapply v_refs; eauto|]. intro Q. exact (v_apart n w V j i r J I Ne R Q). }
  split.
  - intros j J. destruct (Nat.eq_dec j i) as [->|Ne]; [exact B|]. rewrite (T1 j Ne). apply (built_ext w w').
    + intros r R. now rewrite (F j r J Ne R).
    + intros t _. now rewrite T3.
    + now apply (v_built n w V).
  - intros j J. destruct (Nat.eq_dec j i) as [->|Ne]; [exact X|]. rewrite (T1 j Ne). now apply (v_excl n w V).
  - intros j r J R. destruct (Nat.eq_dec j i) as [->|Ne].
    + destruct (T5 r R) as [R'|[_ R']]; [|exact R']. pose proof (v_refs n w V i r J R'). lia.
    + rewrite (T1 j Ne) in R. pose proof (v_refs n w V j r J R). lia.
  - intros j J. destruct (Nat.eq_dec j i) as [->|Ne]; [auto|]. rewrite (T1 j Ne).
    rewrite !(F j _ J Ne) by (unfold reach; auto). now apply (v_own n w V).
  - intros j k r J K Ne Rj Rk. destruct (Nat.eq_dec j i) as [->|Nj].
    + destruct (Nat.eq_dec k i) as [->|Nk]; [contradiction|]. rewrite (T1 k Nk) in Rk.
      destruct (T5 r Rj) as [R|[R _]]; [exact (v_apart n w V i k r J K Ne R Rk)|].
      pose proof (v_refs n w V k r K Rk). lia.
    + rewrite (T1 j Nj) in Rj. destruct (Nat.eq_dec k i) as [->|Nk].
      * destruct (T5 r Rk) as [R|[R _]]; [exact (v_apart n w V j i r J K Ne Rj R)|].
        pose proof (v_refs n w V j r J Rj). lia.
      * rewrite (T1 k Nk) in Rk. exact (v_apart n w V j k r J K Ne Rj Rk).
Qed.
(** Only the model itself changes. *)
Lemma inv_rest : forall n i w w', inv n w -> (i < n)%nat -> rest_same i w w' ->
  m_uca (w_m w' i) = m_uca (w_m w i) -> m_qca (w_m w' i) = m_qca (w_m w i) ->
  (forall r, In r (map snd (m_uco (w_m w' i))) -> In r (map snd (m_uco (w_m w i)))) ->
  excl (w_m w' i) -> built w (w_m w' i) -> inv n w'.
Proof.
  intros n i w w' V I R U Q C X B. pose proof R as R0. destruct R as [R1 [R2 [R3 R4]]].
  destruct (v_own n w V i I) as [O1 O2].
  apply (inv_touch n i w w' V I); auto; try congruence; try lia.
  - intros r. unfold reach. rewrite U, Q. intros [H|[H|H]]; auto.
  - now apply (built_rest i w w').
Qed.
Lemma inv_on : forall n i w g, inv n w -> (i < n)%nat ->
  m_uca (g (w_m w i)) = m_uca (w_m w i) -> m_qca (g (w_m w i)) = m_qca (w_m w i) -> m_uco (g (w_m w i)) = m_uco (w_m w i) ->
  excl (g (w_m w i)) -> built w (g (w_m w i)) -> inv n (on i g w).
Proof.
  intros n i w g V I U Q C X B. apply (inv_rest n i w _ V I (rest_on i g w)); rewrite on_same; auto.
  intros r. now rewrite C.
Qed.
Lemma excl_kept : forall m m', kept m m' -> excl m -> excl m'.
Proof.
  intros m m' H X. unfold excl in *. destruct H as [?[?[?[?[?[H1[H2[H3[H4[H5[H6[H7[H8 _]]]]]]]]]]]]].
  now rewrite H1, H2, H3, H4, H6, H7, H8.
Qed.
Lemma excl_mangle : forall m, excl (mangle m) <-> excl m.
Proof. intro m. reflexivity. Qed.
Lemma inv_idle : forall n i w g, inv n w -> (i < n)%nat -> 
  m_uca (g (w_m w i)) = m_uca (w_m w i) -> m_qca (g (w_m w i)) = m_qca (w_m w i) -> m_uco (g (w_m w i)) = m_uco (w_m w i) ->
  excl (g (w_m w i)) -> idle (g (w_m w i)) -> inv n (on i g w).
Proof. intros. apply inv_on; auto. now apply idle_built. Qed.
(** Frames with the same names, and with one more. *)
Lemma built_names : forall w m fr, built w m -> map fst fr = map fst (m_frame m) -> built w (set_pars fr (m_cons m) m).
Proof.
  intros w m fr B E.
  assert (X : forall d, compile w (set_pars fr (m_cons m) m) d = compile w m d).
  { intro d. unfold compile. cbn [m_frame set_pars]. rewrite E. reflexivity. }
  split.
  - intros M n U. cbn [m_frame set_pars]. apply row_some_in. rewrite E. apply row_some_in. exact (b_names w m B M n U).
  - exact (b_dset w m B).
  - intros x Q. destruct (b_fix w m B x Q) as [M [t [d [T [P1 P2]]]]]. split; [exact M|]. exists t, d. rewrite X. auto.
  - exact (b_cf w m B).
Qed.
Lemma in_index : forall n l p, index_of n l = Some p -> In n l.
Proof.
  intros n l. induction l as [|y l IH]; [discriminate|]. intros p. cbn [index_of]. destruct (string_dec y n); [now left|].
  destruct (index_of n l); [|discriminate]. intros _. right. eapply IH; reflexivity.
Qed.
Lemma all_some_ext : forall {A B} (f g : A -> option B) l r, (forall x, In x l -> forall y, f x = Some y -> g x = Some y) ->
  all_some (map f l) = Some r -> all_some (map g l) = Some r.
Proof.
  intros A B f g l. induction l as [|x l IH]; intros r H E; [exact E|]. cbn [map all_some] in *.
  destruct (f x) as [y|] eqn:F; [|discriminate]. rewrite (H x (or_introl eq_refl) y F).
  destruct (all_some (map f l)) as [r'|] eqn:R; [|discriminate]. injection E as <-.
  rewrite (IH r'); auto. intros z Z'. apply H. now right.
Qed.
Lemma compile_more : forall w m fr d x, covered w m -> (exists r, map fst fr = map fst (m_frame m) ++ r) ->
  compile w m d = Some x -> compile w (set_pars fr (m_cons m) m) d = Some x.
Proof.
  intros w m fr d x C [r E] H. unfold compile in *. cbn [m_frame m_uco m_qs m_graph set_pars]. rewrite E.
  change (ca_terms w (set_pars fr (m_cons m) m)) with (ca_terms w m).
  change (q_terms w (set_pars fr (m_cons m) m)) with (q_terms w m).
  change (co_terms w (set_pars fr (m_cons m) m)) with (co_terms w m).
  destruct (forallb _ (m_uco m)); [|discriminate].
  assert (Ca : forall vars l s, slots_ca (map fst (m_frame m)) vars l = Some s -> slots_ca (map fst (m_frame m) ++ r) vars l = Some s).
  { intros vars l s. unfold slots_ca. apply all_some_ext. intros c _ y Q.
    destruct (index_of (c_par c) (map fst (m_frame m))) as [p|] eqn:P; [|discriminate].
    rewrite (index_app _ _ r (in_index _ _ _ P)), P. exact Q. }
  assert (Co : forall alts vars l s, slots_co alts (map fst (m_frame m)) vars l = Some s -> slots_co alts (map fst (m_frame m) ++ r) vars l = Some s).
  { intros alts vars l s. unfold slots_co. apply all_some_ext. intros c _ y Q.
    destruct (index_of_Z (fst c) alts); [|discriminate].
    destruct (index_of (c_par (snd c)) (map fst (m_frame m))) as [p|] eqn:P; [|discriminate].
    rewrite (index_app _ _ r (in_index _ _ _ P)), P. exact Q. }
  destruct (slots_ca (map fst (m_frame m)) _ (ca_terms w m)) as [s1|] eqn:E1; [|discriminate]. rewrite (Ca _ _ _ E1).
  destruct (slots_ca (map fst (m_frame m)) _ (q_terms w m)) as [s2|] eqn:E2; [|discriminate]. rewrite (Ca _ _ _ E2).
  destruct (slots_co (d_alts d) (map fst (m_frame m)) _ (co_terms w m)) as [s3|] eqn:E3; [|discriminate]. rewrite (Co _ _ _ _ E3).
  assert (Mu : map (fun n : Z * option string => match snd n with Some p => index_of p (map fst (m_frame m) ++ r) | None => None end) (g_nests (m_graph m)) =
               map (fun n : Z * option string => match snd n with Some p => index_of p (map fst (m_frame m)) | None => None end) (g_nests (m_graph m))).
  { apply map_ext_in. intros n I. destruct (snd n) as [p|] eqn:En; [|reflexivity]. apply index_app. apply row_some_in. apply C. right.
    unfold in_scale. apply orb_true_iff; left. apply orb_true_iff; left. apply existsb_exists. exists n. split; [exact I|].
    rewrite En. apply String.eqb_refl. }
  destruct (truthy (m_qs m)) as [q|].
  - destruct (index_of q (map fst (m_frame m))) as [p|] eqn:P; [|discriminate].
    rewrite (index_app _ _ r (in_index _ _ _ P)), P, Mu. exact H.
  - rewrite Mu. exact H.
Qed.
Lemma built_more : forall w m fr r, built w m -> map fst fr = map fst (m_frame m) ++ r -> built w (set_pars fr (m_cons m) m).
Proof.
  intros w m fr r B E. split.
  - intros M n U. cbn [m_frame set_pars]. apply row_some_in. rewrite E. apply in_or_app. left. apply row_some_in. exact (b_names w m B M n U).
  - exact (b_dset w m B).
  - intros x Q. destruct (b_fix w m B x Q) as [M [t [d [T [P1 P2]]]]]. split; [exact M|]. exists t, d. split; [exact T|]. split; [exact P1|].
    apply compile_more; eauto. exact (b_names w m B M).
  - exact (b_cf w m B).
Qed.
(** Unmangling keeps the invariant. *)
Lemma unmangle_inv : forall n i force w, inv n w -> (i < n)%nat -> clear w i ->
  let (w', ok) := unmangle i force w in inv n w' /\ clear w' i /\ kept (w_m w i) (w_m w' i) /\ rest_same i w w' /\
    (forall x, row (m_frame (w_m w' i)) x = named w (w_m w i) x).
Proof.
  intros n i force w V I C. pose proof (unmangle_step i force w) as U. destruct (unmangle i force w) as [w' ok]. destruct U as [R U].
  pose proof (step_unmangle_ok w force (w_m w i) (v_built n w V i I) (proj1 (clear_clear_m w i) C)) as Q. rewrite <- U in Q.
  destruct Q as [K [M [Rw [B [C' _]]]]].
  split; [|split; [|split; [|split]]]; auto.
  - pose proof K as K'. destruct K as [K1[K2[K3 _]]]. apply (inv_rest n i w w' V I R); auto.
    + intros r. now rewrite K3.
    + exact (excl_kept _ _ K' (v_excl n w V i I)).
  - apply clear_clear_m. now apply (clear_m_rest i w w').
Qed.
(** With force, nothing need be in order before. *)
Lemma step_force : forall w m, step_unmangle w true m = step_unmangle w true (mangle m).
Proof. intros w m. unfold step_unmangle, step_scan. destruct m. reflexivity. Qed.
Lemma kept_mangle : forall m, kept m (mangle m).
Proof. intro m. repeat split. Qed.
Lemma named_mangle : forall w m n, named w (mangle m) n = named w m n.
Proof. reflexivity. Qed.
Lemma step_force_ok : forall w m, clear_m w m ->
  let (m', ok) := step_unmangle w true m in
  kept m m' /\ m_mangled m' = false /\ (forall n, row (m_frame m') n = named w m n) /\ built w m' /\ clear_m w m' /\
  (if ok then compiled w m' /\ m_cf m' = Some (m_cons m)
   else exists t, m_tree m = Some t /\
          (direct w m (w_t w t) = None \/ exists d, direct w m (w_t w t) = Some d /\ compile w m' d = None)).
Proof.
  intros w m C. rewrite step_force.
  pose proof (step_unmangle_ok w true (mangle m) (idle_built w _ (mangle_idle m)) C) as Q.
  destruct (step_unmangle w true (mangle m)) as [m' ok]. exact Q.
Qed.
