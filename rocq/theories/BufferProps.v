(* C29: bytes pushed to the shared buffer are returned unchanged until their buffer is dropped. *)
From Coq Require Import List ZArith Bool Lia.
From Verif Require Import ColumnModel BufferModel BufferSpec BufferProofs.
Import ListNotations.
Local Open Scope Z_scope.

(* What was stored with a handle that was not dropped since is still returned. *)
Theorem C29_stored : forall b live stored buf r data, history b live stored -> In (buf, r, data) stored -> data <> [] -> get_bytes b r = Ok data.
Proof. intros b live stored buf r data H Hi Hd. pose proof (history_inv _ _ _ H) as I. exact (lies_get _ _ _ _ _ _ I (inv_stored _ _ _ I _ Hi) Hd). Qed.
Print Assumptions C29_stored.

(* A stored empty array is returned as well, or its page is not there (see below); no other bytes are returned. *)
Theorem C29_stored_empty_partial : forall b live stored buf r, history b live stored -> In (buf, r, []) stored -> get_bytes b r = Ok [] \/ get_bytes b r = Panicked.
Proof. intros b live stored buf r H Hi. pose proof (history_inv _ _ _ H) as I. exact (lies_get_empty _ _ _ _ _ I (inv_stored _ _ _ I _ Hi)). Qed.
Print Assumptions C29_stored_empty_partial.

(* A new handle is different from all handles in use. *)
Theorem C29_new_handle : forall b live stored b' i, history b live stored -> init_buffer b = (b', i) -> ~ In i live.
Proof. intros b live stored b' i H E. exact (proj2 (inv_init _ _ _ _ _ (history_inv _ _ _ H) E)). Qed.
Print Assumptions C29_new_handle.

(* Arrays of less than 16 MB can be stored as long as there are less than 2^15 pages (1 TB). *)
Theorem C29_push : forall b live stored buf data, history b live stored -> In buf live -> Z.of_nat (length data) <= 2 ^ 24 - 1 -> Z.of_nat (length (pages b)) < 2 ^ 15 ->
  exists b' r, push_bytes b buf data = Ok (b', r).
Proof.
  intros b live stored buf data H Hb Hl Hp. apply (push_succeeds b live stored); [exact (history_inv _ _ _ H)|exact Hb| |lia].
  rewrite max_length. exact Hl.
Qed.
Print Assumptions C29_push.

(* An empty array that is stored when the page of its buffer is full gets an address in the next page,
   and reading it panics when there is no such page. *)
Theorem C29_empty_array_refuted : exists b stored r, history b [0%nat] stored /\ In (0%nat, r, []) stored /\ get_bytes b r = Panicked.
Proof. exact full_page_empty. Qed.
Print Assumptions C29_empty_array_refuted.

(* Two buffers, one of which is dropped; its page is used again by a third one. *)
Example C29_example :
  let '(b, i) := init_buffer buffer_new in
  let '(b, j) := init_buffer b in
  bind (push_bytes b i [1; 2; 3]) (fun p => bind (push_bytes (fst p) j [4; 5]) (fun q => bind (push_bytes (fst q) i [6]) (fun s =>
  let b := drop_buffer (fst s) j in
  let '(b, k) := init_buffer b in
  bind (push_bytes b k [7; 8; 9]) (fun t =>
  bind (get_bytes (fst t) (snd p)) (fun x => bind (get_bytes (fst t) (snd s)) (fun y => bind (get_bytes (fst t) (snd t)) (fun z =>
  Ok (length (pages (fst t)), k, x, y, z)))))))) = Ok (2%nat, 1%nat, [1; 2; 3], [6], [7; 8; 9]).
Proof. vm_compute. reflexivity. Qed.
Definition ex_buffer (r : res (buffer * Z)) : buffer := match r with Ok q => fst q | _ => buffer_new end.
Definition ex_ref (r : res (buffer * Z)) : Z := match r with Ok q => snd q | _ => 0 end.
Definition ex2 : buffer := Eval vm_compute in fst (init_buffer (fst (init_buffer buffer_new))).
Definition ex3 : buffer := Eval vm_compute in ex_buffer (push_bytes ex2 0 [4; 5]).
Definition ex3_ref : Z := Eval vm_compute in ex_ref (push_bytes ex2 0 [4; 5]).
Definition ex4 : buffer := Eval vm_compute in ex_buffer (push_bytes ex3 1 [1; 2; 3]).
Definition ex4_ref : Z := Eval vm_compute in ex_ref (push_bytes ex3 1 [1; 2; 3]).
Definition ex5 : buffer := Eval vm_compute in drop_buffer ex4 0.
Definition ex6 : buffer := Eval vm_compute in fst (init_buffer ex5).
Definition ex7 : buffer := Eval vm_compute in ex_buffer (push_bytes ex6 0 [7; 8]).
Definition ex7_ref : Z := Eval vm_compute in ex_ref (push_bytes ex6 0 [7; 8]).
Example C29_example_history : exists b stored r s, history b [0%nat; 1%nat] stored /\ In (0%nat, r, [7; 8]) stored /\ In (1%nat, s, [1; 2; 3]) stored.
Proof.
  assert (H2 : history ex2 [1%nat; 0%nat] []).
  { apply (history_init (fst (init_buffer buffer_new)) [0%nat] [] ex2 1%nat); [|vm_compute; reflexivity]. apply (history_init buffer_new [] [] _ 0%nat); [apply history_new|vm_compute; reflexivity]. }
  assert (H3 : history ex3 [1%nat; 0%nat] [(0%nat, ex3_ref, [4; 5])]) by (apply (history_push ex2); [exact H2|right; left; reflexivity|vm_compute; reflexivity]).
  assert (H4 : history ex4 [1%nat; 0%nat] [(1%nat, ex4_ref, [1; 2; 3]); (0%nat, ex3_ref, [4; 5])]) by (apply (history_push ex3); [exact H3|left; reflexivity|vm_compute; reflexivity]).
  assert (H5 : history ex5 [1%nat] [(1%nat, ex4_ref, [1; 2; 3])]).
  { assert (E : drop_buffer ex4 0 = ex5) by (vm_compute; reflexivity). rewrite <- E. exact (history_drop ex4 _ _ 0%nat H4 (or_intror (or_introl eq_refl))). }
  assert (H6 : history ex6 [0%nat; 1%nat] [(1%nat, ex4_ref, [1; 2; 3])]) by (apply (history_init ex5); [exact H5|vm_compute; reflexivity]).
  assert (H7 : history ex7 [0%nat; 1%nat] [(0%nat, ex7_ref, [7; 8]); (1%nat, ex4_ref, [1; 2; 3])]) by (apply (history_push ex6); [exact H6|left; reflexivity|vm_compute; reflexivity]).
  exists ex7, [(0%nat, ex7_ref, [7; 8]); (1%nat, ex4_ref, [1; 2; 3])], ex7_ref, ex4_ref. split; [exact H7|]. split; [left; reflexivity|right; left; reflexivity].
Qed.
