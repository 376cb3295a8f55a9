"""Write the texts of the grammars in /repo/grammars as Coq strings."""
names=["arith","json","json_memo","lpeg","peg","re","c","java","java_memo"]
o="(** The grammars that come with the code, as texts.  Written by tools/gen_grammars.py from the directory grammars. *)\nFrom Coq Require Import String.\nFrom Verif Require Import Base.\nLocal Open Scope string_scope.\n"
for n in names:
    t=open(f"/repo/grammars/{n}.peg","rb").read(); k=t.count(b"\n")
    o+=f'\n(** grammars/{n}.peg:1-{k} *)\nDefinition {n}_peg : list byte := list_byte_of_string\n"'+t.decode("ascii").replace('"','""')+'".\n'
o+="\n(** the directory grammars *)\nDefinition shipped : list (list byte) := ["+"; ".join(n+"_peg" for n in names)+"].\n"
open("/verif/rocq/theories/Model_Grammars.v","w").write(o)
