(** /repo/src/std.papyri:1-99, the source text of the standard library, as it stands (double quotes are doubled). *)
From Verif Require Import Base.

(** std.papyri:1-99 *)
Definition std_papyri : str := lit "@export @fn page(
    $title: str,
    $web_root: str = `https://kaya3.github.io/papyri`,
    $head?: html,
    $header?: html,
    $footer?: html,
) $content: block -> {
    @let(w=@match $web_root {""$w/"" -> $w, _ -> $web_root})...
    <!DOCTYPE html>
    <html>
    <head>
        <title>$title</>#
        <meta charset=`utf-8`>#
        <link rel=`stylesheet` type=`text/css` href=""$w/papyri.css"">#
        $head
    </>#
    <body>
        @match $header {. -> ., _ -> <header>$header</>}#
        <article>$content</>#
        @match $footer {. -> ., _ -> <footer>$footer</>}#
        <script type=`text/javascript` src=""$w/papyri.js""/>
    </>
    </>
}

@export @fn typeof $v -> @match $v {_: $t -> $t}

@export @fn attributes(**$d: str? dict) $v: html -> @match $v {
    <$t **$a>$v</> -> <$t **$a **$d>$v</>,
    _: $t -> @raise ""expected tag, was $t"",
}
@export @fn class($_c: str) $v: html -> @match $v {
    <$t class=$o **$a>$v</> -> <$t class=""$o $_c"" **$a>$v</>,
    <$t **$a>$v</> -> <$t class=$_c **$a>$v</>,
    _: $t -> @raise ""expected tag, was $t"",
}
@export @fn style($_s: str) $v: html -> @match $v {
    <$t style=$o **$a>$v</> -> <$t style=""$o$_s"" **$a>$v</>,
    <$t **$a>$v</> -> <$t style=$_s **$a>$v</>,
    _: $t -> @raise ""expected tag, was $t"",
}

@export @fn b $v: inline -> <b>$v</>
@export @fn blockquote($cite?: str) $v: block -> <blockquote cite?=$cite>$v</>
@export @fn bold $v: inline -> <strong>$v</>
@export @fn cite $v: inline -> <cite>$v</>
@export @fn dfn $v: inline -> <dfn>$v</>
@export @fn emph $v: inline -> <em>$v</>
@export @fn href($_url: str) $v: inline -> <a href=$_url>$v</>
@export @fn i $v: inline -> <i>$v</>
@export @fn image($alt?: str) $url: str -> <img src=$url alt?=$alt>
@export @fn kbd $v: str -> <kbd>$v</>
@export @fn quote $v: inline -> <q>$v</>
@export @fn samp $v: str -> <samp>$v</>
@export @fn span $v: inline -> <span>$v</>
@export @fn sub $v: inline -> <sub>$v</>
@export @fn sup $v: inline -> <sup>$v</>
@export @fn strikethrough $v: inline -> <s>$v</>
@export @fn underline $v: inline -> <u>$v</>

@export @fn h1 $v: inline -> <h1>$v</>
@export @fn h2 $v: inline -> <h2>$v</>
@export @fn h3 $v: inline -> <h3>$v</>
@export @fn h4 $v: inline -> <h4>$v</>
@export @fn h5 $v: inline -> <h5>$v</>
@export @fn h6 $v: inline -> <h6>$v</>

@export @fn code_block($language?: @implicit str, $first_line_no: int = 1) $v: str -> {
    <pre class=""panel listing"">
        @code(language=$language, code_block=True, first_line_no=$first_line_no) $v
    </>
}

@export @fn numbered $v: html -> @match $v {
    <ul **$d>$v</> -> <ol **$d>$v</>,
    <$t ...>_</> -> @raise ""expected <ul> tag, was <$t> tag"",
    _: $t -> @raise ""expected <ul> tag, was $t"",
}

@export @fn footnote $v: inline -> {
    |<a class=""footnote-ref""/><span class=""footnote panel"">$v</>
}

@export(
    function=@dict::new(
        **$function,
        call=@fn call($_f: function, *$_args, **$kwargs) $content -> @_f(*$_args, **$kwargs) $content,
    ).,
    html=@dict::new(
        **$html,
        tag_name=@fn tag_name $h: html -> $h::tag_name,
    ).,
    inline=@dict::new(
        from=@fn from $v: inline -> $v,
    ).,
    block=@dict::new(
        from=@fn from $v: block -> $v,
    ).,
).
".
