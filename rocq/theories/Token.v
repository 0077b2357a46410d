(** Model of ownership tokens under garbage collection.
    Source: /repo/immer/transience/gc_transience_policy.hpp and its uses in
    {array,vector,flex_vector,map,set,table}_transient.hpp.

    The machine has nodes with tokens, containers that are persistent or transient, and the
    operations of transients on their tokens exactly as the code has them.  The algorithms
    that work on nodes (the *_mut functions) are abstracted: a script of node accesses in
    which every write is guarded by can_mutate, as in the code; what the script reads, where
    it writes and what it builds is arbitrary.  Nodes are never freed (the collector only
    takes what cannot be reached). *)
From Coq Require Import List Arith Bool.
From Verif Require Import Common.
Import ListNotations.

Section Token.
Context {V : Type}.

(** A node: its ownee token (gc_transience_policy.hpp:82-98; 0 is the null token of nodes no
    transient made), contents and children. *)
Record tnode : Type := mkTN { ntok : nat; nbody : V; nkids : list nat }.
(** A container variable: dead, persistent (root), or transient (token and root).  A null
    root is an empty container. *)
Inductive cont : Type := Dead | Pers (r : option nat) | Trans (tok : nat) (r : option nat).
(** [next] is a token that was never used (make_token_: 55-58, assuming fresh addresses; a
    token stays allocated while a node or owner has it). *)
Record tstate : Type := mkTS { nodes : list tnode; conts : list cont; next : nat }.

(** One access of an algorithm.  Registers hold the nodes it knows. *)
Inductive instr : Type :=
| ILoad (r k : nat)                          (* read child k of the node in register r *)
| INew (v : V) (rs : list nat)               (* make a node *)
| IWrite (r : nat) (v : V) (rs : list nat)   (* modify the node in r if can_mutate, else copy *)
| IRoot (r : nat).                           (* the container's root is now the node in r *)

(** How a container is passed to an operation of another one: persistent or lvalue
    transient or rvalue transient. *)
Inductive targ : Type := APers (j : nat) | ALvalue (j : nat) | ARvalue (j : nat).

Inductive top : Type :=
| TBuild (js : list nat) (sc : list instr)   (* a persistent operation on containers js *)
| TTransient (i : nat)                       (* c_i.transient() *)
| TCopy (i : nat) | TMove (i : nat)          (* constructors from transient i *)
| TAssign (i j : nat) | TMoveAssign (i j : nat)
| TPersistent (i : nat)                      (* t_i.persistent() *)
| TPersistentRv (i : nat) (keep : bool)      (* std::move(t_i).persistent() *)
| TEdit (i : nat) (args : list targ) (sc : list instr)
| TDrop (i : nat).

(** can_mutate(edit): 94.  [es] are the tokens the algorithm was given. *)
Definition can_mutate (es : list nat) (n : tnode) : bool :=
  existsb (Nat.eqb (ntok n)) es.

(** One access; [e] is the token put into nodes that are made or modified.  A register that
    does not exist makes the script end. *)
Fixpoint regs_of (ks : list nat) (rs : list nat) : option (list nat) :=
  match rs with
  | [] => Some []
  | r :: rs' => match nth_error ks r, regs_of ks rs' with
                | Some a, Some l => Some (a :: l) | _, _ => None end
  end.
Definition exec (e : nat) (es : list nat) (h : list tnode) (ks : list nat) (root : option nat)
    (i : instr) : option (list tnode * list nat * option nat) :=
  match i with
  | ILoad r k =>
      match nth_error ks r with
      | Some a =>
          match nth_error h a with
          | Some n => match nth_error (nkids n) k with
                      | Some b => Some (h, ks ++ [b], root) | None => None end
          | None => None
          end
      | None => None
      end
  | INew v rs =>
      match regs_of ks rs with
      | Some l => Some (h ++ [mkTN e v l], ks ++ [length h], root)
      | None => None
      end
  | IWrite r v rs =>
      match nth_error ks r, regs_of ks rs with
      | Some a, Some l =>
          match nth_error h a with
          | Some n =>
              if can_mutate es n
              then Some (update_at a (mkTN e v l) h, ks ++ [a], root)
              else Some (h ++ [mkTN e v l], ks ++ [length h], root)
          | None => None
          end
      | _, _ => None
      end
  | IRoot r => match nth_error ks r with Some a => Some (h, ks, Some a) | None => None end
  end.
Fixpoint execs (e : nat) (es : list nat) (h : list tnode) (ks : list nat) (root : option nat)
    (sc : list instr) : list tnode * option nat :=
  match sc with
  | [] => (h, root)
  | i :: sc' => match exec e es h ks root i with
                | Some (h', ks', root') => execs e es h' ks' root' sc'
                | None => (h, root)
                end
  end.

Definition cont_at (s : tstate) (i : nat) : cont := nth i (conts s) Dead.
Definition set_cont (s : tstate) (i : nat) (c : cont) : tstate :=
  mkTS (nodes s) (update_at i c (conts s)) (next s).
Definition add_cont (s : tstate) (c : cont) : tstate :=
  mkTS (nodes s) (conts s ++ [c]) (next s).
Definition fresh (s : tstate) : tstate := mkTS (nodes s) (conts s) (S (next s)).
Definition opt_list (r : option nat) : list nat :=
  match r with Some a => [a] | None => [] end.

(** Passing the arguments: the nodes the algorithm gets to know and the tokens it may
    mutate with.  flex_vector_transient.hpp:202-225: an lvalue gives up its token first, an
    rvalue passes its token along and is left empty. *)
Fixpoint pass (s : tstate) (args : list targ) : option (tstate * list nat * list nat) :=
  match args with
  | [] => Some (s, [], [])
  | APers j :: args' =>
      match cont_at s j with
      | Pers r => match pass s args' with
                  | Some (s', ks, es) => Some (s', opt_list r ++ ks, es) | None => None end
      | _ => None
      end
  | ALvalue j :: args' =>
      match cont_at s j with
      | Trans _ r =>
          match pass (set_cont (fresh s) j (Trans (next s) r)) args' with
          | Some (s', ks, es) => Some (s', opt_list r ++ ks, es) | None => None end
      | _ => None
      end
  | ARvalue j :: args' =>
      match cont_at s j with
      | Trans t r =>
          match pass (set_cont s j (Trans t None)) args' with
          | Some (s', ks, es) => Some (s', opt_list r ++ ks, t :: es) | None => None end
      | _ => None
      end
  end.
Fixpoint roots_of (s : tstate) (js : list nat) : option (list nat) :=
  match js with
  | [] => Some []
  | j :: js' => match cont_at s j, roots_of s js' with
                | Pers r, Some l => Some (opt_list r ++ l) | _, _ => None end
  end.

(** One operation; [None] when it names a container that is not there. *)
Definition tstep (s : tstate) (o : top) : option tstate :=
  match o with
  | TBuild js sc =>
      match roots_of s js with
      | Some ks =>
          let (h, r) := execs 0 [] (nodes s) ks None sc in
          Some (mkTS h (conts s ++ [Pers r]) (next s))
      | None => None
      end
  (* the transient is constructed with a new owner: gc_transience_policy.hpp:64-66 *)
  | TTransient i =>
      match cont_at s i with
      | Pers r => Some (add_cont (fresh s) (Trans (next s) r))
      | _ => None
      end
  (* owner(const owner&): 67-71 *)
  | TCopy i =>
      match cont_at s i with
      | Trans _ r =>
          Some (add_cont (set_cont (fresh (fresh s)) i (Trans (S (next s)) r)) (Trans (next s) r))
      | _ => None
      end
  (* owner(owner&&): 72-74; rrbtree(rrbtree&&): rrbtree.hpp:125-129 leaves an empty tree *)
  | TMove i =>
      match cont_at s i with
      | Trans t r => Some (add_cont (set_cont s i (Trans t None)) (Trans t r))
      | _ => None
      end
  (* operator=(const owner&): 75-80 *)
  | TAssign i j =>
      match cont_at s i, cont_at s j with
      | Trans _ _, Trans _ r =>
          Some (set_cont (set_cont (fresh (fresh s)) j (Trans (next s) r)) i (Trans (S (next s)) r))
      | _, _ => None
      end
  (* operator=(owner&&): 81-85; rrbtree::operator=(rrbtree&&): rrbtree.hpp:138-142 swaps *)
  | TMoveAssign i j =>
      match cont_at s i, cont_at s j with
      | Trans _ ri, Trans t rj =>
          Some (set_cont (set_cont s j (Trans t ri)) i (Trans t rj))
      | _, _ => None
      end
  (* flex_vector_transient.hpp:231-235 *)
  | TPersistent i =>
      match cont_at s i with
      | Trans _ r => Some (add_cont (set_cont (fresh s) i (Trans (next s) r)) (Pers r))
      | _ => None
      end
  (* flex_vector_transient.hpp:236; array_transient.hpp:189-192 can keep sharing the node
     (no_capacity from with_capacity) *)
  | TPersistentRv i keep =>
      match cont_at s i with
      | Trans t r => Some (add_cont (set_cont s i (Trans t (if keep then r else None))) (Pers r))
      | _ => None
      end
  | TEdit i args sc =>
      match pass s args with
      | Some (s', ks, es) =>
          match cont_at s' i with
          | Trans e r =>
              let (h, r') := execs e (e :: es) (nodes s') (opt_list r ++ ks) r sc in
              Some (mkTS h (update_at i (Trans e r') (conts s')) (next s'))
          | _ => None
          end
      | None => None
      end
  | TDrop i => Some (set_cont s i Dead)
  end.
Fixpoint trun (s : tstate) (os : list top) : option tstate :=
  match os with
  | [] => Some s
  | o :: os' => match tstep s o with Some s' => trun s' os' | None => None end
  end.
(** Token 0 is the null token; the first owner gets token 1. *)
Definition tinit : tstate := mkTS [] [] 1.
End Token.
Arguments tnode : clear implicits.
Arguments tstate : clear implicits.
Arguments instr : clear implicits.
Arguments top : clear implicits.
