(** Transcription of src/ExpressionParser.cpp:31-146 and 165-178: the token list of an expression to its value. Expressions
    are represented by elements of an arbitrary type [X] with the operations the parser applies to them. Not modelled:
    braces (tensors) and function arguments of the wrong number or kind. *)
From Verif.Common Require Export Prelude.

Section Parser.
  Variable X : Type.
  (** src/ExpressionParser.cpp:218-238 *)
  Variable endpoint : str -> X.
  (** src/ExpressionParser.cpp:150-167: the functions, by name. *)
  Variable unary : str -> option (X -> X).
  Variables (pow div mul sub add gt lt and_ pack : X -> X -> X).
  (** src/ExpressionParser.cpp:170-178: m_binaryFunctions, in this order. *)
  Definition binary : list (str * (X -> X -> X)) :=
    [(S_ "^", pow); (S_ "/", div); (S_ "*", mul); (S_ "-", sub); (S_ "+", add); (S_ ">", gt); (S_ "<", lt); (S_ "&&", and_); (S_ ",", pack)].
  Definition is_binary (t : str) : bool := existsb (fun b => str_eqb (fst b) t) binary.

  Fixpoint erase {A} (i : nat) (l : list A) : list A :=
    match i, l with _, [] => [] | 0, _ :: t => t | S i', a :: t => a :: erase i' t end.
  Fixpoint put {A} (i : nat) (a : A) (l : list A) : list A :=
    match i, l with _, [] => [] | 0, _ :: t => a :: t | S i', b :: t => b :: put i' a t end.

  (** src/ExpressionParser.cpp:34-40: the loop over the operators of one kind; an access outside of the list is undefined. *)
  Fixpoint binary_loop (fuel : nat) (o : str) (f : X -> X -> X) (pos : nat) (ops : list str) (xs : list X) : res (list str * list X) :=
    match fuel with
    | 0 => OutOfFuel
    | S fu =>
        match nth_error ops pos with
        | None => Ok (ops, xs)
        | Some t => if negb (str_eqb t o) then binary_loop fu o f (S pos) ops xs
                    else match nth_error xs pos, nth_error xs (S pos) with
                         | Some a, Some b => binary_loop fu o f pos (erase pos ops) (erase (S pos) (put pos (f a b) xs))
                         | _, _ => UB
                         end
        end
    end.
  (** src/ExpressionParser.cpp:31-42 *)
  Fixpoint processBinaryOperators (fs : list (str * (X -> X -> X))) (ops : list str) (xs : list X) : res (list str * list X) :=
    match fs with
    | [] => Ok (ops, xs)
    | (o, f) :: t => bind (binary_loop (S (List.length ops)) o f 0 ops xs) (fun '(ops', xs') => processBinaryOperators t ops' xs')
    end.
  (** src/ExpressionParser.cpp:44-54 *)
  Fixpoint processUnaryOperators (fuel pos : nat) (ops : list str) (xs : list X) : res (list str * list X) :=
    match fuel with
    | 0 => OutOfFuel
    | S fu =>
        match nth_error ops pos with
        | None => Ok (ops, xs)
        | Some t => match unary t with
                    | None => processUnaryOperators fu (S pos) ops xs
                    | Some f => match nth_error xs pos with
                                | Some a => processUnaryOperators fu pos (erase pos ops) (put pos (f a) xs)
                                | None => UB
                                end
                    end
        end
    end.

  (** std::string::at(0); an empty token throws. *)
  Definition first (t : str) : option ascii := match t with [] => None | c :: _ => Some c end.
  (** src/ExpressionParser.cpp:62-66: the tokens before and after the bracket that closes [depth] open ones. *)
  Fixpoint matching (depth : nat) (ts : list str) : res (list str * list str) :=
    match ts with
    | [] => Throw
    | t :: r =>
        match first t with
        | None => Throw
        | Some c =>
            let d := if Ascii.eqb c "(" then S depth else if Ascii.eqb c ")" then depth - 1 else depth in
            if Nat.eqb d 0 then Ok ([], r) else bind (matching d r) (fun '(a, b) => Ok (t :: a, b))
        end
    end.
  (** src/ExpressionParser.cpp:58-74: the iterator runs past the end when the bracket is the last token. *)
  Definition findMatchingBracket (ts : list str) : res (list str * list str) :=
    match ts with [] => UB | _ => matching 1 ts end.

  (** src/ExpressionParser.cpp:104-146; [collect] is the loop of lines 110-138. *)
  Fixpoint parseTokens (fuel : nat) (ts : list str) : res X :=
    match fuel with
    | 0 => OutOfFuel
    | S f =>
        bind (collect f ts) (fun '(ops, xs) =>
        bind (processUnaryOperators (S (List.length ops)) 0 ops xs) (fun '(ops', xs') =>
        bind (processBinaryOperators binary ops' xs') (fun '(_, xs'') => of_opt (hd_error xs''))))
    end
  with collect (fuel : nat) (ts : list str) : res (list str * list X) :=
    match fuel with
    | 0 => OutOfFuel
    | S f =>
        match ts with
        | [] => Ok ([], [])
        | t :: r =>
            match first t with
            | None => Throw
            | Some c =>
                if Ascii.eqb c "(" then
                  bind (findMatchingBracket r) (fun '(inner, rest) =>
                  bind (parseTokens f inner) (fun x =>
                  bind (collect f rest) (fun '(ops, xs) => Ok (ops, x :: xs))))
                else if is_binary t || (match unary t with Some _ => true | None => false end)
                then bind (collect f r) (fun '(ops, xs) => Ok (t :: ops, xs))
                else bind (collect f r) (fun '(ops, xs) => Ok (ops, endpoint t :: xs))
            end
        end
    end.
End Parser.
