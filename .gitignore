*.vo
*.vok
*.vos
*.glob
*.aux
.*.aux
Makefile
Makefile.conf
.Makefile.d
.coqdeps.d
.lia.cache
.nia.cache
CoqMakefile*
