(** * Install: the files of share/mnml and the modules of lib/mnml as they are installed. *)
From Verif Require Import Base Value Tails Parser Eval LibText LibText2 LibText3 LibText4 Lib Lib2 Lib3 Path Load.
Open Scope nat_scope.
Open Scope list_scope.

(** share/mnml/CMakeLists.txt:1-2: the files under [install]/share/mnml. *)
Definition scripts : list (string * string) :=
  [("iterators.l", iterators_l); ("rev.l", rev_l); ("filter.l", filter_l); ("append.l", append_l); ("has.l", has_l);
   ("manips.l", manips_l); ("last.l", last_l); ("erase.l", erase_l); ("replc.l", replc_l); ("aton.l", aton_l);
   ("ntoa.l", ntoa_l); ("isort.l", isort_l); ("insert.l", insert_l); ("orelse.l", orelse_l); ("strlt.l", strlt_l);
   ("truncr.l", truncr_l); ("iter.l", iter_l); ("iter2.l", iter2_l); ("trim.l", trim_l); ("join.l", join_l);
   ("merge.l", merge_l); ("dedup.l", dedup_l); ("args.l", args_l); ("flatten.l", flatten_l); ("split.l", split_l);
   ("term.l", term_l); ("test.l", test_l); ("run.l", run_l); ("http.l", http_l); ("cps.l", cps_l); ("cc.l", cc_l)]%string.
Definition script_path (f : string) : bytes := bs "/usr/share/mnml/" ++ bs f.

(** The builtins of lib/mnml/sys and lib/mnml/unix as values; calling one is not modelled
    here ([Unix.v] has their bodies).  lib/mnml/sys/{slabinfo,time}.c:15,23,
    lib/mnml/unix/*.c, the LISP_MODULE_SETUP lines; lib/mnml/{sys,unix}/lib.c. *)
Definition sys_entries : list entry :=
  [(bs "slabinfo", outer Nil 110); (bs "time", outer (Symb (sy "ANY")) 111)].
Definition taking (l : list string) : atom := mk_list (map (fun s => Symb (sy s)) l).
Definition unix_entries : list entry :=
  [(bs "accept", outer (taking ["FD"]) 120); (bs "close", outer (Symb (sy "ANY")) 121);
   (bs "connect", outer (taking ["ADDRESS"; "PORT"]) 122); (bs "dup", outer (Symb (sy "ANY")) 123);
   (bs "exec", outer (taking ["PATH"; "ARGS"; "ENVP"]) 124); (bs "fork", outer Nil 125);
   (bs "listen", outer (taking ["PORT"]) 126); (bs "pipe", outer Nil 127);
   (bs "select", outer (taking ["FDS"; "ON_READ"; "ON_ERROR"]) 128); (bs "unlink", outer (taking ["NAME"]) 129);
   (bs "wait", outer (taking ["X"]) 130)]%string.
Definition usr_modules : list (string * list entry) :=
  std_modules ++ [("sys", sys_entries); ("unix", unix_entries)]%string.

(** lib/mnml/*/CMakeLists.txt: a module is lib<name>.so. *)
Definition module_file (m : string) : bytes := bs "lib" ++ bs m ++ bs ".so".

(** An installation under /usr, the user in /w, HOME in the environment, one entry in
    CONFIG; every path is its own real path. *)
Definition usr_host : host := mkhost None (Some (bs "/root")) (Some (bs "/w")) (bs "/usr") (fun p => Some p).
Definition usr_disk : disk := mkdisk
  (fun d => if beq d (bs "/usr/lib/mnml") then Some (map (fun m => module_file (fst m)) usr_modules) else None)
  (fun p => match find (fun m => beq p (bs "/usr/lib/mnml/" ++ module_file (fst m))) usr_modules with
            | Some (k, e) => Some (bs k, e) | None => None end) None
  (fun p => option_map (fun f => bs (snd f)) (find (fun f => beq (script_path (fst f)) p) scripts)).

(** bin/mnml.c:330-383: start-up, then the expressions of option -e. *)
Definition usr_booted : st := match boot usr_host usr_disk [bs "mnml"] [bs "HOME=/root"] [("PREFIX"%string, bs "/usr")] with Got _ s => s | _ => fresh end.
Definition usr_run (text : bytes) : res atom :=
  main_expr usr_host usr_disk (fun _ _ _ => false) 300 (bs "/w") text usr_booted.

(** [Lib3.library4] with the remaining files. *)
Fixpoint load_rest (texts : list string) (w : world) : option world :=
  match texts with
  | [] => Some w
  | t :: r => match load_text 100 300 [] (bs t) w with Some w' => load_rest r w' | None => None end
  end.
Definition library3 : world :=
  match load_rest [flatten_l; run_l; http_l; cps_l; cc_l] library4 with Some w => w | None => world0 end.
