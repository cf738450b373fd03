import re
src=open('/repo/cordy-sys/src/core/mod.rs').read()
lines=src.split('\n')
def ln(pat,start=0):
    for i,l in enumerate(lines[start:],start):
        if pat in l: return i+1
m=re.search(r'pub enum NativeFunction \{(.*?)\n\}',src,re.S)
names=re.findall(r'^\s{4}([A-Z]\w*),',m.group(1),re.M)
tab=re.search(r'    \[\n(.*?)\n    \]',src,re.S).group(1)
arg={}
order=[]
for l in tab.split('\n'):
    l=l.strip()
    a=re.match(r'new\((\w+), "([^"]*)", "([^"]*)", (\w+)\)',l)
    b=re.match(r'op1\((\w+), "([^"]*)", (\w+)\)',l)
    c=re.match(r'op2\((\w+), "([^"]*)"\)',l)
    if a: arg[a[1]]=(a[4],False,a[2]); order.append(a[1])
    elif b: arg[b[1]]=(b[3],True,b[2]); order.append(b[1])
    elif c: arg[c[1]]=('Arg2',True,c[2]); order.append(c[1])
    elif l and not l.startswith('//'): print("??",l)
assert order==names, "table order"
def arms(fn):
    body=re.search(r'fn %s<.*?match f \{\n(.*?)\n    \}\n\}'%fn,src,re.S).group(1)
    return [x for x in re.findall(r'^\s{8}([A-Z]\w*) =>',body,re.M)]
swap=re.findall(r'(Operator\w+) => (Operator\w+),',re.search(r'pub fn swap.*?\n    \}\n',src,re.S).group(0))
binop=re.findall(r'(Operator\w+) => Some\(BinaryOp::(\w+)\)',src)
o=[]
o.append("""(** The table of builtin functions: core/mod.rs:28-165 (enum NativeFunction),
    core/mod.rs:%d-%d (the static table; its order is that of the enum, so
    `info()` at line %d picks the entry of the function itself).

    Generated once from the source text by tools/gen_native.py and then reviewed;
    names are prefixed with NF_. *)
From Coq Require Import List Bool ZArith.
Import ListNotations.

Inductive native :="""%(ln('const fn load_native_functions'),ln('new(Denom'),ln('fn info(self)')))
o.append("\n".join("| NF_%s"%n for n in names)+".")
o.append("\n(** all of them, in declaration order; [native_index] is the enum discriminant (repr u8) *)")
o.append("Definition all_natives : list native :=\n  ["+"; ".join("NF_"+n for n in names)+"].")
o.append("Definition native_index (f : native) : Z :=\n  match f with\n"+"\n".join("  | NF_%s => %d"%(n,i) for i,n in enumerate(names))+"\n  end%Z.")
o.append("Definition native_eqb (a b : native) : bool := Z.eqb (native_index a) (native_index b).")
o.append("\n(** core/mod.rs:%d-%d *)\nInductive argument :=\n| Arg0 | Arg0To1 | Arg1 | Arg1To2 | Arg1To3 | Arg2 | Arg3 | Unique | UniqueNonEmpty | Iter | IterNonEmpty | Invalid."%(ln('pub enum Argument {'),ln('pub enum Argument {')+13))
o.append("\n(** the `arg` column of the table *)\nDefinition native_arg (f : native) : argument :=\n  match f with\n"+"\n".join("  | NF_%s => %s"%(n,arg[n][0]) for n in names)+"\n  end.")
o.append("\n(** the `hidden` column: operators are not nameable (core/mod.rs:%d-%d) *)\nDefinition native_hidden (f : native) : bool :=\n  match f with\n"%(ln('const fn op1'),ln('const fn op2')+1)+"\n".join("  | NF_%s => true"%n for n in names if arg[n][1])+"\n  | _ => false\n  end.")
o.append("""
(** core/mod.rs:%d `Argument::min_nargs` *)
Definition argument_min_nargs (a : argument) : nat :=
  match a with
  | Arg1 | Arg1To2 | Arg1To3 => 1
  | Arg2 => 2
  | Arg3 => 3
  | _ => 0
  end.
Definition native_min_nargs (f : native) : nat := argument_min_nargs (native_arg f)."""%(ln('fn min_nargs(self)')))
o.append("\n(** core/mod.rs:%d `swap` *)\nDefinition native_swap (f : native) : native :=\n  match f with\n"%ln('pub fn swap(self)')+"\n".join("  | NF_%s => NF_%s"%(a,b) for a,b in swap)+"\n  | op => op\n  end.")
o.append("\n(** vm/operator.rs:22-26 *)\nInductive binop :=\n| BMul | BDiv | BPow | BMod | BIs | BIsNot | BAdd | BSub | BLeftShift | BRightShift | BAnd | BOr | BXor | BIn | BNotIn\n| BLessThan | BGreaterThan | BLessThanEqual | BGreaterThanEqual | BEqual | BNotEqual | BMax | BMin.")
o.append("\n(** core/mod.rs:%d `as_binary_operator` *)\nDefinition native_binop (f : native) : option binop :=\n  match f with\n"%ln('pub fn as_binary_operator')+"\n".join("  | NF_%s => Some B%s"%(a,b) for a,b in binop)+"\n  | _ => None\n  end.")
for fn in ['invoke_arg0','invoke_arg1','invoke_arg2','invoke_arg3','invoke_var']:
    i=ln('fn %s<'%fn)
    o.append("\n(** core/mod.rs:%d.. the functions `%s` has an arm for; all others panic *)\nDefinition %s_supported (f : native) : bool :=\n  match f with\n"%(i,fn,fn)+"\n".join("  | NF_%s => true"%a for a in arms(fn))+"\n  | _ => false\n  end.")
open('/verif/rocq/theories/Native.v','w').write("\n".join(o)+"\n")
print(len(names))
