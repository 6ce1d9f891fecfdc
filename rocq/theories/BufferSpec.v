(* Specification for C29: what a program can do with byte buffers, and what it has stored.

   [history b live stored]: the buffer b after a sequence of operations by which the handles in [live]
   were given out and not dropped since, and [stored] lists for every byte array that was pushed to
   a live handle the handle, the reference returned and the bytes.  Handles are used as their owners do:
   bytes are only pushed to live handles and only live handles are dropped.  Nothing else is assumed
   about the order of the operations, so this covers every interleaving of any number of users. *)
From Coq Require Import List ZArith Bool.
From Verif Require Import ColumnModel BufferModel.
Import ListNotations.

Inductive history : buffer -> list nat -> list (nat * Z * bytes) -> Prop :=
| history_new : history buffer_new [] []
| history_init : forall b live stored b' i, history b live stored -> init_buffer b = (b', i) -> history b' (i :: live) stored
| history_push : forall b live stored buf data b' r, history b live stored -> In buf live -> push_bytes b buf data = Ok (b', r) ->
    history b' live ((buf, r, data) :: stored)
| history_drop : forall b live stored buf, history b live stored -> In buf live ->
    history (drop_buffer b buf) (filter (fun i => negb (Nat.eqb i buf)) live) (filter (fun e => negb (Nat.eqb (fst (fst e)) buf)) stored).
