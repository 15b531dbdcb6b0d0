(** * A memory with room for a trie. *)
From Verif Require Export RoomTrie ExamplesRoom ExamplesAlloc ExamplesTrie.
Global Open Scope Z_scope.

Lemma ex_trie_room : room 8192 16384 ex_trie_m.
Proof.
  eapply room_by_compute; [done|done|done|done|apply lookup_insert| | |].
  - intros i. simpl. lia.
  - vm_compute. reflexivity.
  - vm_compute. reflexivity.
Qed.
Lemma ex_trie_room_client : every (xrequest 16384) ex_trie_client ∧ costs xcost 45 ex_trie_client.
Proof.
  split.
  - split; [by vm_compute|]. intros _. split; [done|]. intros [|p|]; [done| |done]. apply every_list. simpl. by repeat constructor.
  - cbn [costs ex_trie_client]. split; [done|]. intros _. split; [done|]. intros [|p|]; [done| |done].
    apply costs_list; [by intros [|[]| | | | | |]|]. simpl. lia.
Qed.
