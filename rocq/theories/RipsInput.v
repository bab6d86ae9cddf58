(** Model of phlite_rips/src/main.rs 18-43: how the command-line program reads its input, and the whole of [main]. *)
From Verif Require Import Base Fields Columns Matrices Reduction Rips.
Set Implicit Arguments.

Section Input.
  (** [T]: the text of a field; [A]: the text of an argument; [X]: f64; [F]: [NotNan<f64>].  The scanner of the csv crate is not modelled:
      its result is given as the list of records, [None] for a record it cannot read (I/O error, invalid UTF-8).  [str::parse] and
      [NotNan::new] are parameters. *)
  Context {T A X : Type} {F : ordT}.
  Variables (parse_f64 : T -> option X) (not_nan : X -> option F) (parse_usize : A -> option nat).

  (** main.rs 31: [NotNan::new(entry.parse::<f64>().unwrap()).unwrap()] *)
  Definition read_entry (entry : T) : res F := do x <- unwrap (parse_f64 entry); unwrap (not_nan x).

  (** main.rs 22-34: a reader that is not [flexible] reports an error for a record whose number of fields is not that of the first one *)
  Definition read_table (records : list (option (list T))) : res (list (list F)) :=
    let width := match records with Some fields :: _ => length fields | _ => 0 end in
    mapM (fun row => do fields <- unwrap row; if length fields =? width then mapM read_entry fields else Panic) records.

  (** main.rs 37-43 *)
  Definition read_max_dim (arg : option A) : res nat :=
    match arg with Some arg => unwrap (parse_usize arg) | None => Ok 1 end.

  (** main.rs 16-87: [main]; [arg] is the first argument *)
  Definition rips_cli (HI : heaps) (fuel : nat) (uw : N) (z : F) (sub : F -> F -> F) (eps : F)
      (records : list (option (list T))) (arg : option A)
      : res (list nat * list (nat * N * F) * list (nat * (N * N) * (F * F))) :=
    do distance_matrix <- read_table records;
    do max_dim <- read_max_dim arg;
    rips_main HI fuel uw z sub eps distance_matrix max_dim.
End Input.
