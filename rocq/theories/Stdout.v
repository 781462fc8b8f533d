(** Model of the standard output that [plot doc list] writes to: [io::stdout().lock()] and [writeln!(...).unwrap()]
    (plotline-cli/src/document.rs 94-100), down to the calls of [write(2)], any of which may fail.  What is between them is
    std's: [io::Stdout] is a [LineWriter] around a [BufWriter] around [StdoutRaw]. *)
From Coq Require Import List Bool Arith Ascii.
From Verif Require Import Ord BTree Graph Tx Lazy Prog Path Cli Utf8 Regex CliMain.
Import ListNotations.

(** What [write(2)] answers: that it took that many bytes, that it was interrupted (EINTR), that the file is not open for writing
    (EBADF), or any other error (the pipe is broken, the disk full). *)
Inductive answer := Took (n : nat) | Interrupted | NotOpen | Fails.

(** The calls made so far; what the next one answers is any function of them and the bytes given. *)
Definition calls : Type := list (bytes * answer).
Definition device : Type := calls -> bytes -> answer.

(** What has reached the file. *)
Definition reached (h : calls) : bytes := flat_map (fun x => match snd x with Took n => firstn n (fst x) | _ => [] end) h.

Section Writers.
  Variable dev : device.
  (** std's [BufWriter] holds this many bytes (1024 for a [LineWriter]). *)
  Variable cap : nat.

  (** [StdoutRaw::write_all], and the loop of [BufWriter::flush_buf] (std, io/stdio.rs, io/buffered/bufwriter.rs): calls until all is
      written; interrupted ones are made again; taking nothing is an error; EBADF counts as success ([handle_ebadf]).  The bytes not written,
      and whether it succeeded. *)
  Inductive puts : calls -> bytes -> calls -> bytes -> bool -> Prop :=
  | puts_done : forall h, puts h [] h [] true
  | puts_took : forall h b n h' rest ok, b <> [] -> dev h b = Took (S n) -> puts (h ++ [(b, Took (S n))]) (skipn (S n) b) h' rest ok -> puts h b h' rest ok
  | puts_zero : forall h b, b <> [] -> dev h b = Took 0 -> puts h b (h ++ [(b, Took 0)]) b false
  | puts_again : forall h b h' rest ok, b <> [] -> dev h b = Interrupted -> puts (h ++ [(b, Interrupted)]) b h' rest ok -> puts h b h' rest ok
  | puts_not_open : forall h b, b <> [] -> dev h b = NotOpen -> puts h b (h ++ [(b, NotOpen)]) [] true
  | puts_fails : forall h b, b <> [] -> dev h b = Fails -> puts h b (h ++ [(b, Fails)]) b false.

  (** The calls made and what waits in the buffer. *)
  Definition sink : Type := calls * bytes.

  (** [BufWriter::flush_buf]: what could not be written stays in the buffer. *)
  Inductive flush : sink -> sink -> bool -> Prop :=
  | flush_buf : forall h b h' rest ok, puts h b h' rest ok -> flush (h, b) (h', rest) ok.

  (** [BufWriter::write_all] and [write_all_cold]. *)
  Inductive buf_write : sink -> bytes -> sink -> bool -> Prop :=
  | bw_fits : forall h b p, length p < cap - length b -> buf_write (h, b) p (h, b ++ p) true
  | bw_cold : forall s s1 p s' ok, cap - length (snd s) <= length p -> (if cap - length (snd s) <? length p then flush s s1 true else s1 = s) ->
      bw_room s1 p s' ok -> buf_write s p s' ok
  | bw_stuck : forall s s' p, cap - length (snd s) < length p -> flush s s' false -> buf_write s p s' false
  with bw_room : sink -> bytes -> sink -> bool -> Prop :=
  | bw_direct : forall h b p h' rest ok, cap <= length p -> puts h p h' rest ok -> bw_room (h, b) p (h', b) ok
  | bw_buffered : forall h b p, length p < cap -> bw_room (h, b) p (h, b ++ p) true.

  (** [p] up to its last newline, and what comes after it ([memrchr]); none if there is no newline. *)
  Fixpoint lines_of (p : bytes) : option (bytes * bytes) :=
    match p with
    | [] => None
    | c :: p =>
      match lines_of p with
      | Some (l, t) => Some (c :: l, t)
      | None => if Ascii.eqb c newline then Some ([c], p) else None
      end
    end.

  (** [LineWriterShim::flush_if_completed_line]. *)
  Inductive complete : sink -> sink -> bool -> Prop :=
  | complete_flush : forall h b s' ok, flush (h, b ++ [newline]) s' ok -> complete (h, b ++ [newline]) s' ok
  | complete_not : forall h b, (forall b', b <> b' ++ [newline]) -> complete (h, b) (h, b) true.

  (** [LineWriterShim::write_all]: lines are flushed at once. *)
  Inductive line_write : sink -> bytes -> sink -> bool -> Prop :=
  | lw_none : forall s p s1 s' ok, lines_of p = None -> complete s s1 true -> buf_write s1 p s' ok -> line_write s p s' ok
  | lw_none_stuck : forall s p s', lines_of p = None -> complete s s' false -> line_write s p s' false
  | lw_empty : forall h p l t h1 rest s' ok, lines_of p = Some (l, t) -> puts h l h1 rest true -> buf_write (h1, []) t s' ok -> line_write (h, []) p s' ok
  | lw_empty_stuck : forall h p l t h1 rest, lines_of p = Some (l, t) -> puts h l h1 rest false -> line_write (h, []) p (h1, []) false
  | lw_more : forall h b p l t s1 s2 s' ok, b <> [] -> lines_of p = Some (l, t) -> buf_write (h, b) l s1 true -> flush s1 s2 true ->
      buf_write s2 t s' ok -> line_write (h, b) p s' ok
  | lw_more_stuck : forall h b p l t s', b <> [] -> lines_of p = Some (l, t) -> buf_write (h, b) l s' false -> line_write (h, b) p s' false
  | lw_more_flush : forall h b p l t s1 s', b <> [] -> lines_of p = Some (l, t) -> buf_write (h, b) l s1 true -> flush s1 s' false ->
      line_write (h, b) p s' false.

  (** [writeln!(stdout, "{:?}", id)] (document.rs 99): the pieces in which the text is formatted, one after the other; the first error ends it
      ([io::Write::write_fmt]). *)
  Inductive write_fmt : sink -> list bytes -> sink -> bool -> Prop :=
  | wf_done : forall s, write_fmt s [] s true
  | wf_next : forall s p s1 ps s' ok, line_write s p s1 true -> write_fmt s1 ps s' ok -> write_fmt s (p :: ps) s' ok
  | wf_error : forall s p ps s', line_write s p s' false -> write_fmt s (p :: ps) s' false.

  (** document.rs 96-99: one line after the other; an error makes [unwrap] panic. *)
  Inductive listing : sink -> list (list bytes) -> sink -> bool -> Prop :=
  | li_done : forall s, listing s [] s true
  | li_next : forall s l s1 ls s' ok, write_fmt s l s1 true -> listing s1 ls s' ok -> listing s (l :: ls) s' ok
  | li_error : forall s l ls s', write_fmt s l s' false -> listing s (l :: ls) s' false.

  (** main.rs 55-81: a run, how it ends and what reaches the standard output.  When the process ends, panicking or not, std replaces the
      writer (io/stdio.rs, [cleanup]), and dropping it flushes the buffer once more, its errors ignored.  In which pieces std formats a
      line is left open. *)
  Inductive main_to (quotes : bool) (shown : char -> bool) (context : path) (ext : seg) (d : dir) (c : command) : outcome path -> bytes -> dir -> Prop :=
  | to_stdout : forall o printed d' lines s ok s' ok', main_run context ext d c o printed d' ->
      Forall2 (fun ps i => concat ps = debug quotes shown (unsplit i) ++ [newline]) lines printed ->
      listing ([], []) lines s ok -> flush s s' ok' ->
      main_to quotes shown context ext d c (if ok then o else OPanic) (reached (fst s')) d'.
End Writers.
