(** C41: building utility functions preserves meaning.  C42: parameter arithmetic. *)
From Verif Require Import LinModel LinSpec LinProofs LinPrintProofs.
Open Scope R_scope.

(** Every expression over numbers, parameters and data with + - * / and unary minus (and, between
    data, the other Python operators) that Python can build without an exception gives an object
    whose value, for every value of the data and parameters, is the arithmetic of the expression;
    provided the null parameter "_" has value 1, boolean texts are 0/1 and exclusive as their texts
    say, and no trap (LinSpec) occurs. *)
Theorem C41_meaning_partial bare x p other inv e v r :
  booleans_ok x -> p null_ = 1 -> clean bare e ->
  build bare e = Some v -> expr_means x p other inv e r -> val_means x p other inv v r.
Proof. intros Hb Hn. apply build_means; auto. Qed.
(** Its value is unique. *)
Theorem C41_value_unique x other inv t u v : means x other inv t u -> means x other inv t v -> u = v.
Proof. apply means_det. Qed.

(** The traps, each refuting the unrestricted property. *)
Theorem C41_zero_minus_parameter_refuted bare x p other inv :
  p "a"%string = 1 ->
  exists v, build bare (EBin Minus (ENum 0) (EPar "a")) = Some v /\
    expr_means x p other inv (EBin Minus (ENum 0) (EPar "a")) (-1) /\ ~ val_means x p other inv v (-1).
Proof.
  intros Hp. exists (VPar "a"). split; [|split].
  - simpl. unfold reqb. destruct (Req_EM_T 0 0); [auto|contradiction].
  - replace (-1) with (arith other Minus 0 (p "a"%string)) by (simpl; rewrite Hp; ring).
    apply em_bin; constructor.
  - simpl. rewrite Hp. lra.
Qed.
Theorem C41_double_zero_refuted bare x p other inv :
  x "a"%string = 5 ->
  let e := EBin Plus (EDat [TZZ]) (EDat [TA "a"%string]) in
  exists v, build bare e = Some v /\ expr_means x p other inv e 5 /\ ~ val_means x p other inv v 5.
Proof.
  intros Hx e. exists (VDat [TN 0; TO Plus; TZZ]). split; [reflexivity|]. split.
  - replace 5 with (arith other Plus 0 5) by (simpl; ring). apply em_bin; apply em_dat.
    + apply (means_prim _ _ _ [TZZ] (YN 0)), prim_tzz.
    + rewrite <- Hx. apply (means_prim _ _ _ [TA "a"%string] (YA "a")), prim_ta.
  - intros H. assert (H0 : means x other inv [TN 0; TO Plus; TZZ] (0 + 0)).
    { exists 30%nat, (YBin Plus (YN 0) (YN 0)). split; reflexivity. }
    simpl in H. pose proof (means_det _ _ _ _ _ _ H H0). lra.
Qed.
Theorem C41_parameter_times_component_refuted bare x p other inv :
  let e := EBin Times (EPar "a") (EBin Times (EPar "b") (ENum 2)) in
  exists v, build bare e = Some v /\ (exists r, expr_means x p other inv e r) /\
    forall r, ~ val_means x p other inv v r.
Proof.
  intros e. eexists. split; [reflexivity|]. split.
  - eexists. repeat constructor.
  - intros r. simpl. discriminate.
Qed.
Theorem C41_negative_base_refuted x p inv :
  x "a"%string = 2 ->
  let other := fun o u v => match o with Pow => if Req_EM_T v 2 then u * u else 0 | _ => 0 end in
  let bare := fun _ => true in
  let e := EBin Pow (ENum (-3)) (EDat [TA "a"%string]) in
  exists v, build bare e = Some v /\ expr_means x p other inv e 9 /\ ~ val_means x p other inv v 9.
Proof.
  intros Hx other bare e.
  assert (En : num_text (-3) = [TO Minus; TN (- (-3))]) by (unfold num_text; destruct (Rlt_dec (-3) 0); [auto|lra]).
  exists (VDat [TO Minus; TN (- (-3)); TO Pow; TA "a"%string]). split; [|split].
  - unfold e. cbn [build apply data_op]. unfold fmt2. rewrite En. reflexivity.
  - replace 9 with (arith other Pow (-3) 2).
    2:{ simpl. destruct (Req_EM_T 2 2); [lra|contradiction]. }
    apply em_bin; [constructor|]. apply em_dat. rewrite <- Hx. apply (means_prim _ _ _ [TA "a"%string] (YA "a")), prim_ta.
  - simpl. intros H.
    assert (H0 : means x other inv [TO Minus; TN (- (-3)); TO Pow; TA "a"%string] (- 9)).
    { exists 20%nat, (YNeg (YBin Pow (YN (- (-3))) (YA "a"))). split; [reflexivity|].
      simpl. rewrite Hx. destruct (Req_EM_T 2 2); [lra|contradiction]. }
    pose proof (means_det _ _ _ _ _ _ H H0). lra.
Qed.
(** The null parameter is an ordinary parameter, whose value starts at 0: X.a + P.b loses X.a. *)
Theorem C41_null_parameter_refuted bare x p other inv :
  p null_ = 0 -> x "a"%string = 5 -> p "b"%string = 1 ->
  let e := EBin Plus (EDat [TA "a"%string]) (EPar "b") in
  exists v, build bare e = Some v /\ expr_means x p other inv e 6 /\ ~ val_means x p other inv v 6.
Proof.
  intros H0 Hx Hb e.
  assert (Ma : means x other inv [TA "a"%string] 5).
  { rewrite <- Hx. apply (means_prim _ _ _ [TA "a"%string] (YA "a")), prim_ta. }
  destruct (build bare e) as [v|] eqn:E.
  2:{ simpl in E. unfold cc_add in E. discriminate. }
  exists v. split; [auto|]. split.
  - replace 6 with (arith other Plus 5 (p "b"%string)) by (simpl; rewrite Hb; ring). apply em_bin; constructor; auto.
  - assert (Ed : dat_mul bare t1 [TA "a"%string] = [TA "a"%string]).
    { unfold dat_mul, is1, t1. simpl. unfold reqb. destruct (Req_EM_T 1 1); [auto|contradiction]. }
    assert (Ev : v = VFun [mkComp null_ [TA "a"%string] 1; unit_comp "b"]).
    { unfold e in E. cbn [build apply add] in E. unfold comp_dat in E. cbn [c_data c_param c_scale unit_comp] in E.
      rewrite Ed in E. unfold cc_add, dead in E. cbn [c_data c_scale unit_comp is0 t0 t1 text_eqb tok_eqb] in E.
      assert (R1 : reqb 1 0 = false) by (unfold reqb; destruct (Req_EM_T 1 0); [lra|auto]).
      unfold is0, t0, t1 in E. simpl in E. rewrite R1 in E. simpl in E. injection E as <-. reflexivity. }
    subst v. simpl. intros H. inversion H as [|c l a b Hc Hl E1 E2]; subst.
    inversion Hl as [|c' l' a' b' Hc' Hl' E3 E4]; subst. inversion Hl'; subst.
    destruct Hc as (d & _ & Ea). destruct Hc' as (d' & Hd' & Ea'). simpl in Ea, Ea', Hd'.
    pose proof (means_det _ _ _ _ _ _ Hd' (means_tn x other inv 1)). subst d'.
    rewrite H0 in Ea. rewrite Hb in Ea'. lra.
Qed.
(** Two boolean tests of the same variable with different texts are taken to exclude each other,
    even when the texts mean the same number. *)
Theorem C41_boolean_product_refuted bare x p other inv :
  x "boolean(a==1)"%string = 1 -> x "boolean(a==1.0)"%string = 1 ->
  let e := EBin Times (EDat [TX "boolean(a==1)"%string]) (EDat [TX "boolean(a==1.0)"%string]) in
  exists v, build bare e = Some v /\ expr_means x p other inv e 1 /\ ~ val_means x p other inv v 1.
Proof.
  intros H1 H2 e. exists (VDat t0). split; [reflexivity|]. split.
  - replace 1 with (arith other Times 1 1) by (simpl; ring).
    apply em_bin; apply em_dat; [rewrite <- H1|rewrite <- H2]; apply means_tx.
  - simpl. intros H. pose proof (means_det _ _ _ _ _ _ H (means_tn x other inv 0)). lra.
Qed.

(** Non-vacuity: 2*P.b*X.c - P.a*X.c with X.c = x+y typed as text, and a product with data. *)
Definition ex_util : expr :=
  EBin Minus (EBin Times (EBin Times (ENum 2) (EPar "b")) (EDat [TX "x+y"%string]))
             (EBin Times (EPar "a") (EDat [TX "x+y"%string])).
Definition ex_x (s : string) : R := if String.eqb s "x+y" then 7 else 0.
Definition ex_p (s : string) : R := if String.eqb s "a" then 3 else if String.eqb s null_ then 1 else 4.
Example C41_example :
  clean (fun _ => true) ex_util /\
  build (fun _ => true) ex_util = Some (VFun [mkComp "b" [TX "x+y"%string] 2; mkComp "a" [TX "x+y"%string] (- (1))]) /\
  expr_means ex_x ex_p (fun _ _ _ => 0) (fun a => a) ex_util ((2 * 4) * 7 - 3 * 7) /\ booleans_ok ex_x /\ ex_p null_ = 1.
Proof.
  assert (R1 : reqb 1 1 = true) by (unfold reqb; destruct (Req_EM_T 1 1); [auto|contradiction]).
  assert (B1 : build (fun _ => true) (EBin Times (EBin Times (ENum 2) (EPar "b")) (EDat [TX "x+y"%string])) =
          Some (VComp (mkComp "b" [TX "x+y"%string] 2))).
  { cbn [build apply mul]. unfold comp_dat, dat_mul, is1, t1. simpl. rewrite R1. reflexivity. }
  split; [|split; [|split; [|split; [|reflexivity]]]].
  - unfold ex_util. cbn [clean]. repeat split; auto; intros u v Hu Hv; try (simpl in Hu, Hv; injection Hu as <-; injection Hv as <-; simpl; auto; fail).
  - unfold ex_util. remember (EBin Times (EBin Times (ENum 2) (EPar "b")) (EDat [TX "x+y"%string])) as L.
    cbn [build apply]. rewrite B1. reflexivity.
  - unfold ex_util.
    apply (em_bin _ _ _ _ Minus _ _ ((2 * 4) * 7) (3 * 7)).
    + apply (em_bin _ _ _ _ Times _ _ (2 * 4) 7).
      * apply (em_bin _ _ _ _ Times _ _ 2 4); [constructor|].
        apply (em_par ex_x ex_p _ _ "b").
      * apply em_dat. apply (means_tx ex_x (fun _ _ _ => 0) (fun a => a) "x+y").
    + apply (em_bin _ _ _ _ Times _ _ 3 7).
      * apply (em_par ex_x ex_p _ _ "a").
      * apply em_dat. apply (means_tx ex_x (fun _ _ _ => 0) (fun a => a) "x+y").
  - split; unfold ex_x.
    + intros s H. destruct (String.eqb_spec s "x+y"); [subst; discriminate|auto].
    + intros s s' v a b H _ _. destruct (String.eqb_spec s "x+y"); [subst; discriminate|auto].
Qed.

(** ** C42 *)
(** Arithmetic on parameters and numbers: the value is the arithmetic of the parts. *)
Theorem C42_value_partial bare p other inv e v r :
  no_data e -> p null_ = 1 -> clean bare e -> build bare e = Some v ->
  expr_means (fun _ => 0) p other inv e r -> val_means (fun _ => 0) p other inv v r.
Proof. intros _ Hn. apply build_means; auto. split; auto. Qed.
(** The printed form, read again as a Python expression, has the same value; when no unparenthesized
    difference is subtracted and no unparenthesized quotient divided by. *)
Theorem C42_printed_partial p other inv e t v :
  printable e -> show e = Some t -> pvalue p other e = Some v -> means p other inv t v.
Proof. intros Hp Hs Hv. apply (good_means _ _ _ e); auto. apply show_good; auto. Qed.
(** Every expression with a value prints. *)
Theorem C42_prints p other e v : pvalue p other e = Some v -> exists t, show e = Some t.
Proof.
  revert v; induction e as [a|s|c|a IH|o a IHa b IHb]; simpl; intros v H; try discriminate; eauto.
  - destruct (IH v H) as [t ->]. eauto.
  - destruct (pvalue p other a) as [u|]; [|discriminate]. destruct (pvalue p other b) as [w|]; [|discriminate].
    destruct (IHa u eq_refl) as [t ->]. destruct (IHb w eq_refl) as [t' ->]. eauto.
Qed.
(** a - (b - 1) prints as "a - b - (1)"; a / (b / 2) as "a / b / (2)". *)
Theorem C42_printed_subtraction_refuted p other inv :
  let e := POp Minus (PRef "a") (POp Minus (PRef "b") (PNum 1)) in
  exists t v, build (fun _ => true) (EBin Minus (EPar "a") (EBin Minus (EPar "b") (ENum 1))) = Some (VOp e) /\
    show e = Some t /\ pvalue p other e = Some v /\ ~ means p other inv t v.
Proof.
  intros e. assert (En : num_text 1 = [TN 1]) by (unfold num_text; destruct (Rlt_dec 1 0); [lra|auto]).
  exists ([TA "a"%string; TO Minus; TA "b"%string; TO Minus; TL; TN 1; TR]), (p "a"%string - (p "b"%string - 1)).
  split; [|split; [|split]].
  - cbn [build apply sub is_zero]. assert (reqb 1 0 = false) as -> by (unfold reqb; destruct (Req_EM_T 1 0); [lra|auto]). reflexivity.
  - unfold e. cbn [show]. rewrite En. reflexivity.
  - reflexivity.
  - intros H. assert (H0 : means p other inv [TA "a"%string; TO Minus; TA "b"%string; TO Minus; TL; TN 1; TR] (p "a"%string - p "b"%string - 1)).
    { exists 30%nat, (YBin Minus (YBin Minus (YA "a") (YA "b")) (YN 1)). split; reflexivity. }
    pose proof (means_det _ _ _ _ _ _ H H0). lra.
Qed.
Theorem C42_printed_division_refuted p other inv :
  p "a"%string = 1 -> p "b"%string = 1 ->
  let e := POp Div (PRef "a") (POp Div (PRef "b") (PRef "c")) in
  p "c"%string = 2 ->
  exists t v, build (fun _ => true) (EBin Div (EPar "a") (EBin Div (EPar "b") (EPar "c"))) = Some (VOp e) /\
    show e = Some t /\ pvalue p other e = Some v /\ ~ means p other inv t v.
Proof.
  intros Ha Hb e Hc.
  exists ([TA "a"%string; TO Div; TA "b"%string; TO Div; TA "c"%string]), (p "a"%string / (p "b"%string / p "c"%string)).
  split; [reflexivity|]. split; [reflexivity|]. split; [reflexivity|].
  intros H. assert (H0 : means p other inv [TA "a"%string; TO Div; TA "b"%string; TO Div; TA "c"%string] (p "a"%string / p "b"%string / p "c"%string)).
  { exists 30%nat, (YBin Div (YBin Div (YA "a") (YA "b")) (YA "c")). split; reflexivity. }
  pose proof (means_det _ _ _ _ _ _ H H0) as E. rewrite Ha, Hb, Hc in E. lra.
Qed.
(** Non-vacuity: (a - 1) * b + (c + 2) / a. *)
Example C42_example :
  let e := POp Plus (POp Times (POp Minus (PRef "a") (PNum 1)) (PRef "b")) (POp Div (POp Plus (PRef "c") (PNum 2)) (PNoop (PRef "a"))) in
  printable e /\ exists t, show e = Some t /\ length t = 19%nat.
Proof.
  assert (En : forall n, 0 < n -> num_text n = [TN n]) by (intros n Hn; unfold num_text; destruct (Rlt_dec n 0); [lra|auto]).
  split; [simpl; tauto|]. eexists. split; [cbn [show]; rewrite !En by lra; reflexivity|reflexivity].
Qed.
