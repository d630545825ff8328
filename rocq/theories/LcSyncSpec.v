(** What it means for the parts of a latent class model to share their parameters. *)
From Verif Require Export LcSyncModel.

(** Part [i]'s functions use the parameter [n]. *)
Definition uses (i : nat) (n : string) (s : lcm) : Prop :=
  exists p, nth_error (parts s) i = Some p /\
    (In n (n_util (p_names p)) \/ In n (n_quant (p_names p)) \/ In n (n_logsum (p_names p))).
(** It uses [n], or has a row for it. *)
Definition knows (i : nat) (n : string) (s : lcm) : Prop := In n (names_in i s) \/ uses i n s.
(** A latent class model just put together from parts, each with a frame of its own, in which names
    are not repeated, and none yet scanned since its functions last changed (or with every name
    already there).  The latent class model itself (part 0) has no functions. *)
Record put_together (s : lcm) : Prop := {
  pt_mangled : py_mangled s = true;
  pt_own : NoDup (map p_ref (parts s));
  pt_alloc : forall p, In p (parts s) -> p_ref p < next s;
  pt_rows : forall p, In p (parts s) -> NoDup (map r_name (rows (heap s (p_ref p))));
  pt_names : forall p, In p (parts s) ->
    NoDup (n_util (p_names p)) /\ NoDup (n_quant (p_names p)) /\ NoDup (n_logsum (p_names p));
  pt_scan : forall i p n, nth_error (parts s) i = Some p -> p_mangled p = false -> uses i n s -> In n (names_in i s);
  pt_self : forall p, nth_error (parts s) 0 = Some p -> p_names p = mkNames [] [] [] }.
(** Whichever part is looked at, there is a parameter of another part that it does not know. *)
Definition no_part_knows_all (s : lcm) : Prop :=
  forall i, i < length (parts s) -> exists j n, j < length (parts s) /\ knows j n s /\ ~ knows i n s.
(** What can happen later: functions of a part are changed, anything is mangled, anything is
    unmangled (without force), values are set. *)
Inductive event := Edit (i : nat) (ns : modelnames) | Mangle | Unmangle | UnmanglePart (i : nat) | SetValue (n : string) (v : num).
(** The effect of an event; an error leaves the state as it was. *)
Definition happens (s : lcm) (e : event) : lcm :=
  match e with
  | Edit i ns => if Nat.eqb i 0 then s else edit_part i ns s
  | Mangle => mangle s
  | Unmangle => match unmangle false s with Some s' => s' | None => s end
  | UnmanglePart i => if Nat.eqb i 0 then s else match unmangle_part false (Some s) i with Some s' => s' | None => s end
  | SetValue n v => set_value n v s
  end.
