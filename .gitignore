*.vo
*.vos
*.vok
*.glob
*.aux
.*.cache
.*.aux
Makefile
Makefile.conf
.Makefile.d
*.d
