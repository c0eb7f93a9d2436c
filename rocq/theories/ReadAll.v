(** Reference model of io.ReadAll (Go 1.16 standard library; ioutil.ReadAll is the
    same function) and of strings.Reader, and parse.Reader on a reader that delivers
    its text piece by piece. *)
From Verif Require Import Text GoAst Ast Parse.
From Coq Require Import Arith.

(** The error a Read returns (io.go). *)
Inductive read_err := EOF | Failed (msg : text).
(** An io.Reader with the state [S]: Read with room for [n] bytes gives the bytes it
    stored, the error if any, and the new state (io.go; parse/parse.go:21). *)
Definition reader (S : Type) := S -> nat -> text * option read_err * S.

Section ReadAll.
  Context {S : Type}.
  Variable rd : reader S.
  (** The capacity append picks when it must grow a slice of this capacity. *)
  Variable grow : nat -> nat.

  (** The loop of io.ReadAll (src/io/io.go): [b] is what was read, [cap] its capacity.
      A Read that claims more bytes than it had room for makes the reslicing
      b[:len(b)+n] panic.  [None]: more than [fuel] rounds. *)
  Fixpoint read_loop (fuel cap : nat) (b : text) (s : S) : option (res text) :=
    match fuel with
    | 0 => None
    | Datatypes.S fuel =>
        let cap := if List.length b =? cap then grow cap else cap in
        let '(c, e, s) := rd s (cap - List.length b) in
        if cap <? List.length b + List.length c then Some (Panic (str "slice bounds out of range"))
        else
          let b := b ++ c in
          match e with
          | None => read_loop fuel cap b s
          | Some EOF => Some (Ok b)
          | Some (Failed m) => Some (Err m)
          end
    end.
  (** io/ioutil.ReadAll, the buffer starting with 512 bytes. *)
  Definition read_all (fuel : nat) (s : S) : option (res text) := read_loop fuel 512 [] s.

  (** parse.Reader, parse/parse.go:18-22 with parser.ParseReader, zparser.go:1753-1760. *)
  Definition Reader_from (gp : text -> res gexpr) (filename : text) (fuel : nat) (s : S) : option (res file) :=
    option_map (Reader gp filename) (read_all fuel s).
End ReadAll.

(** strings.Reader (src/strings/reader.go): the state is what is left of the string. *)
Definition string_reader : reader text := fun left_ n =>
  match left_ with
  | [] => ([], Some EOF, [])
  | _ => (firstn n left_, None, skipn n left_)
  end.
