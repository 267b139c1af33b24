#!/usr/bin/env python3
"""Write rocq/theories/LibText.v: the text of library files of /repo/share/mnml."""
import os
FILES = ["iterators", "rev", "filter", "append", "has", "last", "erase", "replc",
         "aton", "ntoa", "isort", "insert", "orelse", "strlt"]
HERE = os.path.dirname(os.path.abspath(__file__))
out = ["(** * LibText: the bundled library, verbatim (written by tools/gen_lib.py). *)",
       "From Coq Require Import String.", "Open Scope string_scope.", ""]
def add(name, text, cite):
    out.append("(** %s *)" % cite)
    out.append("Definition %s : string := \"%s\".\n" % (name, text.replace('"', '""')))
for f in FILES:
    path = "/repo/share/mnml/%s.l" % f
    text = open(path).read()
    add(f + "_l", text, "share/mnml/%s.l:1-%d" % (f, text.count("\n")))
text = open("/repo/share/mnml/manips.l").read()
add("manips_l", text, "share/mnml/manips.l:1-%d" % text.count("\n"))
text = open("/repo/share/mnml/truncr.l").read()
add("truncr_l", text, "share/mnml/truncr.l:1-%d" % text.count("\n"))
open(os.path.join(HERE, "../rocq/theories/LibText.v"), "w").write("\n".join(out))
# LibText2.v: further files.
out = ["(** * LibText2: more of the bundled library, verbatim (written by tools/gen_lib.py). *)",
       "From Coq Require Import String.", "Open Scope string_scope.", ""]
for f in ["iter", "iter2", "trim", "join", "merge", "dedup", "args", "flatten", "split"]:
    text = open("/repo/share/mnml/%s.l" % f).read()
    add(f + "_l", text, "share/mnml/%s.l:1-%d" % (f, text.count("\n")))
open(os.path.join(HERE, "../rocq/theories/LibText2.v"), "w").write("\n".join(out))
# LibText3.v: the files of the test framework.
out = ["(** * LibText3: the test framework of the bundled library, verbatim (written by tools/gen_lib.py). *)",
       "From Coq Require Import String.", "Open Scope string_scope.", ""]
for f in ["term", "test"]:
    text = open("/repo/share/mnml/%s.l" % f).read()
    add(f + "_l", text, "share/mnml/%s.l:1-%d" % (f, text.count("\n")))
open(os.path.join(HERE, "../rocq/theories/LibText3.v"), "w").write("\n".join(out))
# LibText4.v: the remaining files.
out = ["(** * LibText4: the rest of the bundled library, verbatim (written by tools/gen_lib.py). *)",
       "From Coq Require Import String.", "Open Scope string_scope.", ""]
for f in ["run", "http", "cps", "cc"]:
    text = open("/repo/share/mnml/%s.l" % f).read()
    add(f + "_l", text, "share/mnml/%s.l:1-%d" % (f, text.count("\n")))
open(os.path.join(HERE, "../rocq/theories/LibText4.v"), "w").write("\n".join(out))
