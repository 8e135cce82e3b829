(** * What it means that a debug build and a release build agree

    Used by PropsProfile.v. *)
From Verif Require Export Proc.

(** the debug build panics, or both builds do the same *)
Definition agree {A : Type} (debug release : res A) : Prop := debug = Panic \/ debug = release.

(** the same for the calls that two instances accept *)
Record agree_dht {T : Type} (d r : Dht T) : Prop := {
  ag_len : dht_len d = dht_len r;
  ag_inplace_scratch : dht_inplace_scratch d = dht_inplace_scratch r;
  ag_oop_scratch : dht_oop_scratch d = dht_oop_scratch r;
  ag_inplace : forall buffer scratch,
    agree (dht_process_with_scratch d buffer scratch) (dht_process_with_scratch r buffer scratch);
  ag_oop : forall input output scratch,
    agree (dht_process_oop d input output scratch) (dht_process_oop r input output scratch)
}.
(** constructors: the debug build panics, or both do the same, with agreeing instances *)
Definition agree_new {T : Type} (debug release : res (Dht T)) : Prop :=
  match debug, release with
  | Panic, _ => True
  | Ok d, Ok r => agree_dht d r
  | UB, UB => True
  | Hang, Hang => True
  | _, _ => False
  end.
