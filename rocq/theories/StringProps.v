(** C48: StringOps::tokenize and join. *)
From Coq Require Import Ascii String.
From Verif Require Import Base RegionOpsModel StringModel StringSpec StringFacts.

(** tokenize yields the maximal delimiter-free runs, in order, and nothing
    else would do. *)
Theorem C48_tokenize : forall s ds, exists l, tokenize s ds = Some l /\ forall l', tokenized (fun c => In c ds) s l' <-> l' = l.
Proof.
  intros s ds. destruct (tokenize_spec ds s) as (l & E & T). exists l. split; [exact E|]. intros l'. split; [intros T'; exact (tokenized_unique (fun c => In c ds) s l' l T' T)|now intros ->].
Qed.
Print Assumptions C48_tokenize.

(** Splitting what was joined yields the parts. *)
Theorem C48_join : forall ts d, Forall (fun t => t <> [] /\ ~ In d t) ts -> tokenize (join ts [d]) [d] = Some ts.
Proof.
  intros ts d H. destruct (tokenize_spec [d] (join ts [d])) as (l & -> & T). f_equal. exact (tokenized_unique (fun c => In c [d]) _ l ts T (join_tokenized d ts H)).
Qed.
Print Assumptions C48_join.

Example C48_example :
  option_map (List.map string_of_list_ascii) (tokenize (list_ascii_of_string ",;ab;,c d,;") (list_ascii_of_string ";, ;")) = Some ["ab"; "c"; "d"]%string /\
  string_of_list_ascii (join (List.map list_ascii_of_string ["ab"; "c"; "d"]%string) (list_ascii_of_string ":")) = "ab:c:d"%string.
Proof. split; vm_compute; reflexivity. Qed.
