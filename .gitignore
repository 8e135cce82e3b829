*.vo
*.vok
*.vos
*.glob
*.aux
.*.cache
.Makefile.d
.CoqMakefile.d
Makefile
Makefile.conf
